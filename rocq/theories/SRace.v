(** Specification for C151: exponential samples and the race between them. *)
From Coq Require Import String ZArith Bool Reals List.
From Verif Require Import Num SNum SPath SBW SLik SRun MModels.
Import ListNotations.
Local Open Scope R_scope.

(** Density at [t] of numpy.random.exponential(1/r), and the probability that
    the sample exceeds [t]. *)
Definition exp_density (r t : R) : R := r * exp (- (r * t)).
Definition exp_survival (r t : R) : R := exp (- (r * t)).

(** Independent samples, one for each rate of the row: density at [t] of the
    sample [i], times the probability that each of the others exceeds [t]. *)
Definition others_survive (row : list R) (i : nat) (t : R) : R :=
  fold_right Rmult 1 (map (fun j => if (j =? i)%nat then 1 else exp_survival (nth j row 0) t) (seq 0 (length row))).
Definition race_density (row : list R) (i : nat) (t : R) : R := exp_density (nth i row 0) t * others_survive row i t.

(** The sample [i] is [t] and is the first of the smallest. *)
Definition wins (row : list R) (sample : nat -> R) (i : nat) (t : R) : Prop :=
  (i < length row)%nat /\ 0 < nth i row 0 /\ sample i = t /\
  forall j, (j < length row)%nat -> 0 < nth j row 0 -> t <= sample j /\ ((j < i)%nat -> t < sample j).

(** From [s] the states [x] are visited and the times are [ts], with the samples
    number k, k+1, ... *)
Fixpoint won (m : ctmc R) (samples : nat -> nat -> R) (k s : nat) (x : list nat) (ts : list R) : Prop :=
  match x, ts with
  | [], [] => True
  | s' :: x', t :: ts' => wins (nth s (ct_mat m) []) (samples k) s' t /\ won m samples (S k) s' x' ts'
  | _, _ => False
  end.
(** Density of these states and times. *)
Fixpoint race_weight (m : ctmc R) (s : nat) (x : list nat) (ts : list R) : R :=
  match x, ts with
  | [], [] => 1
  | s' :: x', t :: ts' => race_density (nth s (ct_mat m) []) s' t * race_weight m s' x' ts'
  | _, _ => 0
  end.
Definition labels_of (m : ctmc R) (x : list nat) : list string := map (fun j => nth j (ct_lab m) EmptyString) x.
