(** Specification vocabulary for training sets. *)
From Coq Require Import String ZArith List Bool Permutation.
From Verif Require Import MSet.
Import ListNotations.

Section S.
Context {A : Type} (eqb : A -> A -> bool).

(** [eqb] decides equality. *)
Definition decides_eq : Prop := forall x y, eqb x y = true <-> x = y.

(** Number of occurrences of [x] in a list. *)
Definition occ (x : A) (l : list A) : nat := length (filter (eqb x) l).

(** Distinct elements in order of first occurrence. *)
Fixpoint first_occ (l : list A) : list A :=
  match l with
  | [] => []
  | x :: l' => x :: filter (fun y => negb (eqb x y)) (first_occ l')
  end.

(** Multiplicity of [x] in a list of weighted elements, and in a set. *)
Fixpoint wmult (x : A) (l : list (A * Z)) : Z :=
  match l with
  | [] => 0
  | (y, t) :: l' => (if eqb x y then t else 0) + wmult x l'
  end%Z.
Definition mult (s : tset A) (x : A) : Z := wmult x (combine (seqs s) (times s)).

(** One multiplicity per stored sequence, stored sequences distinct. *)
Definition wf_set (s : tset A) : Prop :=
  length (times s) = length (seqs s) /\ NoDup (seqs s).

(** All multiplicities at least 1. *)
Definition pos_set (s : tset A) : Prop := forall t, In t (times s) -> (1 <= t)%Z.
End S.

(** [l] is sorted for the order [leb]: each element is below all the following
    ones. *)
Fixpoint sorted_by {A} (leb : A -> A -> bool) (l : list A) : Prop :=
  match l with
  | [] => True
  | x :: l' => (forall y, In y l' -> leb x y = true) /\ sorted_by leb l'
  end.

(** The symbol at position [i] of some sequence of [ss], [i] even / odd. *)
Definition at_even {E} (ss : list (list E)) (x : E) : Prop :=
  exists s k, In s ss /\ nth_error s (2 * k) = Some x.
Definition at_odd {E} (ss : list (list E)) (x : E) : Prop :=
  exists s k, In s ss /\ nth_error s (2 * k + 1) = Some x.
