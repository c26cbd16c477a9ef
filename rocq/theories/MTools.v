(** Model of jajapy/base/tools.py *)
From Coq Require Import List ZArith Bool.
From Verif Require Import Num Py.
Import ListNotations.

Section Tools.
Context {K : Type} `{Num K}.
Local Open Scope num_scope.

(** numpy's [cumsum], starting from an accumulated value. *)
Fixpoint cumsum_from (acc : K) (m : list K) : list K :=
  match m with
  | [] => []
  | x :: m' => (acc + x) :: cumsum_from (acc + x) m'
  end.
Definition cumsum (m : list K) : list K := cumsum_from n0 m.

(** numpy's [nonzero(m)[0]]: the indices of the non-zero entries. *)
Fixpoint nonzero_from (i : nat) (m : list K) : list nat :=
  match m with
  | [] => []
  | x :: m' => if x =? n0 then nonzero_from (S i) m' else i :: nonzero_from (S i) m'
  end.
Definition nonzero (m : list K) : list nat := nonzero_from 0 m.

(** tools.py:32-64 [resolveRandom], with the value returned by [random()] as
    argument [r].  The [while] loop walks along [mi]; running past its end is
    the IndexError of [mi[i]]. *)
Fixpoint resolve_loop (r : K) (m : list K) (mi : list nat) : res nat :=
  match mi with
  | [] => Err IndexError
  | i :: mi' => if vget m i <? r then resolve_loop r m mi' else Ok i
  end.
Definition resolveRandom (m : list K) (r : K) : res nat :=
  let c := cumsum m in resolve_loop r c (nonzero c).

(** tools.py:66-83 [normalize] (list and ndarray branches compute the same
    values). *)
Definition normalize (l : list K) : list K := map (fun i => i / nsum l) l.

(** A Python number given as size: an int or something else (with its value). *)
Inductive pynum := PyInt (z : Z) | PyFlt (q : K).

(** tools.py:85-118 [randomProbabilities]. [draws] is the content of the array
    returned by [randint(1,11,size)]. *)
Definition randomProbabilities (size : pynum) (draws : list Z) : res (list K) :=
  match size with
  | PyInt z => if (z <=? 0)%Z then Err ValueError else Ok (normalize (map nofZ draws))
  | PyFlt q => if q <=? n0 then Err ValueError else Err TypeError
  end.

(** [round(x, 3)] times 1000: nearest integer to 1000x, ties to even. *)
Definition round3 (x : K) : Z :=
  let y := nofZ 1000 * x in
  let f := nfloor y in
  let d := nofZ 2 * (y - nofZ f) in       (* twice the fractional part *)
  if d <? n1 then f
  else if n1 <? d then (f + 1)%Z
  else if Z.even f then f else (f + 1)%Z.

(** tools.py:120-135 [checkProbabilities] *)
Definition checkProbabilities (l : list K) : bool :=
  ((round3 (nsum l) =? 1000)%Z || (round3 (nsum l) =? 0)%Z)%bool.

(** tools.py:137-141 [hoeffdingBound]; needs sqrt and log, so it is only
    instantiated at [R]. [abs(x)] is written with a comparison.  Outside
    n1, n2 >= 0 and 0 < alpha <= 2 Python raises (division by zero or math
    domain error); this is not modelled and the theorems exclude it. *)
Definition nabs (x : K) : K := if x <? n0 then n0 - x else x.
Definition hoeffdingBound `{Trans K} (f1 n_1 f2 n_2 alpha : K) : bool :=
  if (n_1 * n_2) =? n0 then true
  else nabs (f1 / n_1 - f2 / n_2)
       <? ((nsqrt (n1 / n_1) + nsqrt (n1 / n_2))
           * nsqrt (n1 / nofZ 2 * nln (nofZ 2 / alpha))).

End Tools.
Arguments PyInt {K} z.
Arguments PyFlt {K} q.
