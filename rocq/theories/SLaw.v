(** Specification vocabulary for the law of the simulations: boxes of draws and
    their volume. *)
From Coq Require Import Reals List.
Import ListNotations.
Local Open Scope R_scope.

(** The draw [r] is in the interval from [a] (excluded, except 0) to [b]; an
    interval of length 0 is empty. *)
Definition within (ab : R * R) (r : R) : Prop := fst ab < snd ab /\ (fst ab < r <= snd ab \/ (r = 0 /\ fst ab = 0)).
(** A box: one interval for each of the first draws. *)
Fixpoint inbox (b : list (R * R)) (draws : nat -> R) (i : nat) : Prop :=
  match b with
  | [] => True
  | ab :: b' => within ab (draws i) /\ inbox b' draws (S i)
  end.
Fixpoint volume (b : list (R * R)) : R :=
  match b with
  | [] => 1
  | ab :: b' => (snd ab - fst ab) * volume b'
  end.
(** A box of [k] intervals of the unit interval. *)
Definition unit_box (k : nat) (b : list (R * R)) : Prop := length b = k /\ forall ab, In ab b -> 0 <= fst ab <= snd ab /\ snd ab <= 1.
(** No draws are in two of the boxes. *)
Definition disjoint (boxes : list (list (R * R))) : Prop :=
  forall p q b b' draws, nth_error boxes p = Some b -> nth_error boxes q = Some b' -> inbox b draws 0 -> inbox b' draws 0 -> p = q.
