(** Specification of a root finder: complex numbers as pairs of reals. *)
From Coq Require Import Reals List.
From Verif Require Import SPLearn.
Import ListNotations.
Local Open Scope R_scope.

Definition cadd (x y : R * R) : R * R := (fst x + fst y, snd x + snd y).
Definition cmul (x y : R * R) : R * R := (fst x * fst y - snd x * snd y, fst x * snd y + snd x * fst y).
(** t_0 + t_1 z + t_2 z^2 + ... for a complex z. *)
Definition cpoly (t : list R) (z : R * R) : R * R := fold_right (fun c acc => cadd (c, 0) (cmul z acc)) (0, 0) t.
(** Not constant. *)
Definition has_degree (t : list R) : Prop := exists i, nth (S i) t 0 <> 0.
(** The list of the roots of a polynomial which is not constant; nothing for a
    constant one. *)
Definition finds_roots (polyroots : list R -> list (R * R)) : Prop :=
  forall t, (has_degree t -> forall z, In z (polyroots t) <-> cpoly t z = (0, 0)) /\ (~ has_degree t -> polyroots t = []).
(** The equations of the learning algorithm: -A + B_1 x + B_2 x^2 + ... = 0. *)
Definition equation (t : list R) : Prop := nth 0 t 0 < 0 /\ (forall i, 0 <= nth (S i) t 0).
