(** Specification vocabulary for the learning of parametric CTMCs. *)
From Coq Require Import String ZArith Bool Reals List.
From Verif Require Import Num SNum SPath MModels MPctmc SPctmc SLik SBW SExp.
Import ListNotations.
Local Open Scope R_scope.

(** The power of a parameter in a product. *)
Fixpoint degree (p : string) (e : expr R) : nat :=
  match e with
  | EVar x => if String.eqb p x then 1 else 0
  | EMul a b => degree p a + degree p b
  | EPow a n => n * degree p a
  | _ => 0
  end.
(** A product of numbers, parameters and powers of parameters, each parameter
    occurring once (as sympy writes it). *)
Fixpoint is_monomial (e : expr R) : Prop :=
  match e with
  | EConst _ | EVar _ => True
  | EPow (EVar _) n => (2 <= n)%nat
  | EMul a b => is_monomial a /\ is_monomial b /\ forall x, occurs x a -> ~ occurs x b
  | _ => False
  end.
(** Every rate is such a product, or depends on the fixed parameters only. *)
Definition learnable (fixed : list string) (m : pctmc R) : Prop :=
  forall i j, (i < pc_n m)%nat -> (j < pc_n m)%nat ->
    is_monomial (transition m i j) \/ forall x, occurs x (transition m i j) -> In x fixed.
(** The places recorded for each parameter are those where it occurs. *)
Definition indexed (m : pctmc R) : Prop :=
  NoDup (pc_par m) /\
  (forall i j x, (i < pc_n m)%nat -> (j < pc_n m)%nat -> occurs x (transition m i j) -> In x (pc_par m)) /\
  forall p, In p (pc_par m) -> NoDup (parameterIndexes m p) /\
    forall i j, In (i, j) (parameterIndexes m p) <->
      (0 <= i < Z.of_nat (pc_n m))%Z /\ (0 <= j < Z.of_nat (pc_n m))%Z /\ occurs p (transition m (Z.to_nat i) (Z.to_nat j)).
(** All the parameters have a value, not negative, and so are the rates. *)
Definition valued (m : pctmc R) : Prop :=
  (forall p, In p (pc_par m) -> exists v, current m p = Some v /\ 0 <= v) /\ valid_rates m (current m).
(** The parameters to estimate. *)
Definition free_params (fixed : list string) (m : pctmc R) : list string :=
  filter (fun p => if in_dec string_dec p fixed then false else true) (pc_par m).
(** The sum of the powers of the parameters to estimate. *)
Definition total_degree (ps : list string) (e : expr R) : nat := fold_right (fun p k => degree p e + k)%nat 0%nat ps.

(** [poly t x] is t_0 + t_1 x + t_2 x^2 + ... *)
Definition poly (t : list R) (x : R) : R := fold_right (fun c acc => c + x * acc) 0 t.
(** What is assumed of the numerical root finder: it gives a nonnegative root of
    the equations -A + B_1 x + B_2 x^2 + ... = 0 (A, B_i >= 0) it is used on. *)
Definition solver (maxroot : list R -> Py.res R) : Prop :=
  forall t x, maxroot t = Py.Ok x -> nth 0 t 0 <= 0 -> (forall i, 0 <= nth (S i) t 0) -> 0 <= x /\ poly t x = 0.

(** Same states, labels, rates expressions and parameters. *)
Definition same_shape (m m' : pctmc R) : Prop :=
  pc_mat m' = pc_mat m /\ pc_lab m' = pc_lab m /\ pc_expr m' = pc_expr m /\ pc_ind m' = pc_ind m /\ pc_par m' = pc_par m /\
  pc_ini m' = pc_ini m /\ pc_name m' = pc_name m.

(** The new value [w] of the parameter [q], whose value was [v]: it is v times the
    solution of the equation saying that the expected number of moves it explains
    is what it should be, or v when the parameter has not been exposed at all. *)
Definition expected_uses (fixed : list string) (m : pctmc R) (q : string) (dwell : nat -> R) (r : nat -> nat -> R) (x : R) : R :=
  Sum (pc_n m) (fun i => Sum (pc_n m) (fun j =>
    INR (degree q (transition m i j)) * (dwell i * r i j * x ^ total_degree (free_params fixed m) (transition m i j)))).
Definition observed_uses (m : pctmc R) (q : string) (moves : nat -> nat -> R) : R :=
  Sum (pc_n m) (fun i => Sum (pc_n m) (fun j => INR (degree q (transition m i j)) * moves i j)).
Definition reestimated (fixed : list string) (m : pctmc R) (q : string) (moves : nat -> nat -> R) (dwell : nat -> R) (r : nat -> nat -> R) (v w : R) : Prop :=
  exists z, 0 <= z /\ w = v * z /\
    (expected_uses fixed m q dwell r z = observed_uses m q moves \/ z = 1 /\ expected_uses fixed m q dwell r 1 = 0).

(** [after_rounds round k m m']: m' is the model after k rounds from m. *)
Inductive after_rounds {M} (round : M -> Py.res (M * R)) : nat -> M -> M -> Prop :=
| ar_start m : after_rounds round 0 m m
| ar_round k m m1 m2 ll : after_rounds round k m m1 -> round m1 = Py.Ok (m2, ll) -> after_rounds round (S k) m m2.

(** Every state can be left with a rate which does not depend on the parameters to
    estimate. *)
Definition anchored (fixed : list string) (m : pctmc R) : Prop :=
  forall i, (i < pc_n m)%nat -> exists j v, (j < pc_n m)%nat /\ has_rate m (current m) i j v /\ 0 < v /\
    forall x, occurs x (transition m i j) -> In x fixed.
(** Each parameter to estimate occurs with the same total degree wherever it
    occurs (no equation has to be solved numerically). *)
Definition uniform (fixed : list string) (m : pctmc R) : Prop :=
  forall q i j i' j', In q (free_params fixed m) -> (i < pc_n m)%nat -> (j < pc_n m)%nat -> (i' < pc_n m)%nat -> (j' < pc_n m)%nat ->
    occurs q (transition m i j) -> occurs q (transition m i' j') ->
    total_degree (free_params fixed m) (transition m i j) = total_degree (free_params fixed m) (transition m i' j').
