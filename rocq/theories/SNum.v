(** Specification vocabulary: finite sums of reals and distributions. *)
From Coq Require Import Reals List.
Import ListNotations.
Local Open Scope R_scope.

(** Sum of a list of reals. *)
Definition rsum (l : list R) : R := fold_right Rplus 0 l.

(** Sum of [f a] for [a] in the list [l]. *)
Definition sumL {A} (l : list A) (f : A -> R) : R := rsum (map f l).

(** Sum of [f i] for [i = 0 .. n-1]. *)
Definition Sum (n : nat) (f : nat -> R) : R := sumL (seq 0 n) f.

(** A vector of non-negative numbers. *)
Definition nonneg (l : list R) : Prop := forall x, In x l -> 0 <= x.

(** A probability distribution. *)
Definition is_dist (l : list R) : Prop := nonneg l /\ rsum l = 1.

(** Entries of vectors and matrices (out of range: 0). *)
Definition vecR (v : list R) (i : nat) : R := nth i v 0.
Definition matR (m : list (list R)) (i j : nat) : R := nth j (nth i m []) 0.
