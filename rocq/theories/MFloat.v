(** Double precision: the model at the primitive floats of Coq (IEEE binary64,
    round to nearest even), the float64 of numpy and the floats of Python.

    Sums are taken from the last term, where numpy adds from the first or by
    pairs: the theorems are about sums where the order does not matter.  The
    functions log, exp and sqrt and the constant pi are arguments. *)
From Coq Require Import ZArith PrimFloat FloatOps SpecFloat Uint63 Bool List.
From Verif Require Import Num.

(** [float(z)], exact when |z| < 2^53, used below 2^63. *)
Definition float_of_Z (z : Z) : float :=
  match z with
  | Z0 => zero
  | Zpos _ => of_uint63 (Uint63.of_Z z)
  | Zneg p => PrimFloat.opp (of_uint63 (Uint63.of_Z (Zpos p)))
  end.
(** [math.floor(x)] (0 for nan and infinities, where Python raises). *)
Definition float_floor (x : float) : Z :=
  match Prim2SF x with
  | S754_finite s m e => Z.shiftl (if s then Zneg m else Zpos m) e
  | _ => Z0
  end.

#[global] Instance FNum : Num float := {
  n0 := zero; n1 := one;
  nadd := PrimFloat.add; nmul := PrimFloat.mul; nsub := PrimFloat.sub; ndiv := PrimFloat.div;
  nleb := PrimFloat.leb; neqb := PrimFloat.eqb; nofZ := float_of_Z; nfloor := float_floor }.
