(** The root finder used for the parameters of the third category:
    jajapy/base/BW.py:1192-1194, [max(polyroots(temp))].

    [polyroots] (numpy) is not modelled: it is a parameter, of which only the
    specification [finds_roots] (SPRoot.v) is used.  Complex numbers are pairs
    (real part, imaginary part). *)
From Coq Require Import Bool List.
From Verif Require Import Num Py.
Import ListNotations.
Local Open Scope num_scope.

Section PRoot.
  Context {K : Type} `{Num K}.

  (** [x > y] on numpy's complex numbers: lexicographic *)
  Definition cgt (x y : K * K) : bool := (fst y <? fst x) || ((fst x =? fst y) && (snd y <? snd x)).
  (** Python's [max]: ValueError on an empty sequence, the first of the largest
      elements otherwise *)
  Definition py_max (l : list (K * K)) : res (K * K) :=
    match l with
    | [] => Err ValueError
    | x :: r => Ok (fold_left (fun best y => if cgt y best then y else best) r x)
    end.
  (** base/BW.py:1194.  When the largest root is not real the parameter becomes a
      complex number, and the next computation of the rates (897-901) raises
      TypeError: a complex cannot be stored in an array of floats.  Here the
      exception is raised at once. *)
  Definition largest_root (polyroots : list K -> list (K * K)) (t : list K) : res K :=
    do z <- py_max (polyroots t);
    if snd z =? n0 then Ok (fst z) else Err TypeError.
End PRoot.
