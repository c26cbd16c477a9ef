(** Numbers used by the model.

    jajapy computes with Python floats / numpy float64.  The model is
    parametric in a type [K] of numbers with the operations below; it is
    instantiated at [R] (all theorems) and at [Q] (execution with vm_compute).
    Floating-point rounding is not modelled. *)
From Coq Require Import ZArith QArith Qround Reals List Lia Lra Bool.
Import ListNotations.

Class Num (K : Type) := {
  n0 : K;
  n1 : K;
  nadd : K -> K -> K;
  nmul : K -> K -> K;
  nsub : K -> K -> K;
  ndiv : K -> K -> K;
  nleb : K -> K -> bool;
  neqb : K -> K -> bool;
  nofZ : Z -> K;
  nfloor : K -> Z          (* greatest integer not above *)
}.

Declare Scope num_scope.
Delimit Scope num_scope with num.
Infix "+" := nadd : num_scope.
Infix "*" := nmul : num_scope.
Infix "-" := nsub : num_scope.
Infix "/" := ndiv : num_scope.
Infix "<=?" := nleb : num_scope.
Infix "=?" := neqb : num_scope.

(** Strict comparison (with nan both comparisons are false, also at primitive
    floats) and conversion of integers. *)
Definition nltb {K} `{Num K} (x y : K) : bool := nleb x y && negb (neqb x y).
Infix "<?" := nltb : num_scope.
Definition nofnat {K} `{Num K} (n : nat) : K := nofZ (Z.of_nat n).

(** Python's [sum], numpy's [.sum()], numpy's [dot] on vectors. *)
Definition nsum {K} `{Num K} (l : list K) : K := fold_right nadd n0 l.

Fixpoint zipwith {A B C} (f : A -> B -> C) (l : list A) (m : list B) : list C :=
  match l, m with
  | a :: l', b :: m' => f a b :: zipwith f l' m'
  | _, _ => []
  end.

Definition ndot {K} `{Num K} (l m : list K) : K := nsum (zipwith nmul l m).

(** Entry of a vector / matrix.  Only used with indices in range (the theorems
    carry the well-formedness hypotheses that make this so). *)
Definition vget {K} `{Num K} (v : list K) (i : nat) : K := nth i v n0.
Definition mget {K} `{Num K} (m : list (list K)) (i j : nat) : K :=
  vget (nth i m []) j.

(** numpy's [zeros(n)] and [array([f(i) for i in range(n)])]. *)
Definition vzeros {K} `{Num K} (n : nat) : list K := repeat n0 n.
Definition vbuild {A} (n : nat) (f : nat -> A) : list A := map f (seq 0 n).

(** ** Instances *)

Definition Rleb (x y : R) : bool := if Rle_dec x y then true else false.
Definition Reqb (x y : R) : bool := if Req_EM_T x y then true else false.

#[global] Instance RNum : Num R := {
  n0 := 0%R; n1 := 1%R;
  nadd := Rplus; nmul := Rmult; nsub := Rminus; ndiv := Rdiv;
  nleb := Rleb; neqb := Reqb; nofZ := IZR; nfloor := Int_part }.

#[global] Instance QNum : Num Q := {
  n0 := 0%Q; n1 := 1%Q;
  nadd := (fun x y => Qred (Qplus x y));
  nmul := (fun x y => Qred (Qmult x y));
  nsub := (fun x y => Qred (Qminus x y));
  ndiv := (fun x y => Qred (Qdiv x y));
  nleb := Qle_bool; neqb := Qeq_bool; nofZ := inject_Z; nfloor := Qfloor }.

(** Transcendental functions, available at [R] only (Python's math.log,
    math.exp, math.sqrt). *)
Class Trans (K : Type) := { nln : K -> K; nexp : K -> K; nsqrt : K -> K; npi : K }.
#[global] Instance RTrans : Trans R := { nln := ln; nexp := exp; nsqrt := sqrt; npi := PI }.
