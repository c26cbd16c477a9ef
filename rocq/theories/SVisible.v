(** Specification vocabulary for C170: learning the parameters of a parametric CTMC
    from timed traces when all states have different labels. *)
From Coq Require Import String ZArith Bool Reals List.
From Verif Require Import Num SNum SPath LSum MModels MPctmc SPctmc SLik SBW SExp SPLearn SObs.
Import ListNotations.
Local Open Scope R_scope.

(** No rate mentions two of the parameters to estimate, or a power of one. *)
Definition separate (fixed : list string) (m : pctmc R) : Prop :=
  forall q i j, In q (free_params fixed m) -> (i < pc_n m)%nat -> (j < pc_n m)%nat -> occurs q (transition m i j) ->
    total_degree (free_params fixed m) (transition m i j) = 1%nat.
(** [coef i j] is what the rate from i to j would be if the value of q were 1. *)
Definition per_unit (m : pctmc R) (q : string) (coef : nat -> nat -> R) : Prop :=
  forall i j, (i < pc_n m)%nat -> (j < pc_n m)%nat -> occurs q (transition m i j) ->
    has_rate m (fun x => if String.eqb x q then Some 1 else current m x) i j (coef i j).
(** The number of observed moves whose rate contains q, and the time during which
    they could have happened, each weighted by what one unit of q contributes. *)
Definition moves_with (m : pctmc R) (q : string) (set : list ((list string * list R) * Z)) : R :=
  Sum (pc_n m) (fun i => Sum (pc_n m) (fun j =>
    INR (degree q (transition m i j)) * ct_moves_seen (nth i (pc_lab m) EmptyString) (nth j (pc_lab m) EmptyString) set)).
Definition exposure (m : pctmc R) (q : string) (coef : nat -> nat -> R) (set : list ((list string * list R) * Z)) : R :=
  Sum (pc_n m) (fun i => Sum (pc_n m) (fun j =>
    INR (degree q (transition m i j)) * (ct_time_seen (nth i (pc_lab m) EmptyString) set * coef i j))).
