(** Specification for C160: the probability of an event that depends on the
    first values of random(). *)
From Coq Require Import String ZArith Reals List.
From Verif Require Import Num Py SNum MSet MModels MRun SGibbs SLaw SRun.
Import ListNotations.
Local Open Scope R_scope.

(** The draws of [0,1)^k for which the event happens are the points of pairwise disjoint
    boxes whose volumes sum to [p]. *)
Definition chance (k : nat) (E : (nat -> R) -> Prop) (p : R) : Prop :=
  exists boxes, (forall b, In b boxes -> unit_box k b) /\ disjoint boxes /\ rsum (map volume boxes) = p /\
    forall d, (forall i, unit_draw (d i)) -> (E d <-> exists b, In b boxes /\ inbox b d 0).

(** Values of random() from the [n]-th on. *)
Definition later (n : nat) (d : nat -> R) : nat -> R := fun j => d (n + j)%nat.

(** Average of [F] over a set: sequences with multiplicities. *)
Definition average {A} (F : A -> R) (ss : list A) (vs : list Z) : R :=
  sumL (combine ss vs) (fun sv => IZR (snd sv) * F (fst sv)) / sumL vs IZR.
(** Expected value and variance of [F] when [a] has probability [P a]. *)
Definition mean {A} (L : list A) (P F : A -> R) : R := sumL L (fun a => P a * F a).
Definition variance {A} (L : list A) (P F : A -> R) : R := sumL L (fun a => P a * (F a - mean L P F) ^ 2).

(** [x.run(size)] gives traces of [T] + 1 symbols and reads [k] values of random().
    (jajapy/mc/MC.py:122-150, jajapy/base/Model.py:109-136) *)
Inductive sampled : source -> nat -> Z -> nat -> (Z -> (nat -> R) -> res (list string)) -> Prop :=
| sampled_mc m T : sampled (FromMC m) T (Z.of_nat T) (S T) (fun z => mc_run m z (-1))
| sampled_hmm m T : sampled (FromHMM m) T (Z.of_nat (S T)) (S (2 * S T)) (fun z => hmm_run m z (-1)).

(** The set made by [x.generateSet(N, size)] (jajapy/base/Model.py:138-196): the [i]-th trace
    is simulated with the values of random() that follow those of the previous traces. *)
Definition generated {A} (eqb : A -> A -> bool) (k : nat) (run : Z -> (nat -> R) -> res A) (size : Z) (N : nat) (d : nat -> R) : res (list A * list Z) :=
  gen_lists eqb (fun i z => run z (later (i * k) d)) (Z.of_nat N) (PInt size) None None.
