(** Specification for C156: sets of traces with exactly the frequencies of a
    model. *)
From Coq Require Import ZArith Reals List.
Import ListNotations.
Local Open Scope R_scope.

(** Each trace is listed once and is possible; for every value of [key] that
    occurs, all the possible traces with that value occur, and their
    multiplicities are proportional to their probabilities. *)
Definition exact_set_by {O K : Type} (key : list O -> K) (P : list O -> R) (set : list (list O * Z)) : Prop :=
  NoDup (map fst set) /\
  (forall tr t, In (tr, t) set -> tr <> [] /\ (0 < t)%Z /\ 0 < P tr) /\
  (forall tr t tr', In (tr, t) set -> key tr' = key tr -> 0 < P tr' -> exists t', In (tr', t') set) /\
  (forall tr t tr' t', In (tr, t) set -> In (tr', t') set -> key tr' = key tr -> IZR t * P tr' = IZR t' * P tr).

(** Traces of the same length are compared. *)
Definition exact_set {O : Type} (P : list O -> R) (set : list (list O * Z)) : Prop := exact_set_by (@length O) P set.
