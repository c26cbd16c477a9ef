(** Specification for C154: standard normal samples and the traces of a GoHMM
    made of them. *)
From Coq Require Import Reals List.
From Verif Require Import Num SNum SPath SBW SLik MModels.
Import ListNotations.
Local Open Scope R_scope.

(** numpy.random.normal(mu, sigma) from the standard sample number k of step i. *)
Definition loc_scale (z : nat -> nat -> R) (i k : nat) (p : R * R) : R := fst p + snd p * z i k.
Definition std_density (z : R) : R := exp (- (z ^ 2 / 2)) / sqrt (2 * PI).

(** Standard sample that gives the component k of the observation [o] in state s. *)
Definition standardised (m : gohmm R) (s k : nat) (o : list R) : R := (nth k o 0 - mean m s k) / stddev m s k.
(** Density of the d components of [o] in state s: density of the standard
    samples, divided by the scale factors. *)
Definition sample_density (m : gohmm R) (d s : nat) (o : list R) : R :=
  fold_right Rmult 1 (map (fun k => std_density (standardised m s k o) / stddev m s k) (seq 0 d)).
(** Density of the observations [tr] along the states [x], one state per
    observation. *)
Fixpoint samples_density (m : gohmm R) (d : nat) (x : list nat) (tr : list (list R)) : R :=
  match x, tr with
  | s :: x', o :: tr' => sample_density m d s o * samples_density m d x' tr'
  | _, _ => 1
  end.
