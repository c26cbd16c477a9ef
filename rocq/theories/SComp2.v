(** Specification vocabulary for the order of a composition (C158). *)
From Coq Require Import String Reals List.
From Verif Require Import Num Py MModels SNum SPctmc MPctmc SCompose.
Import ListNotations.
Local Open Scope R_scope.

Definition swap (ab : nat * nat) : nat * nat := (snd ab, fst ab).

(** [id] numbers the pairs satisfying [P] in the model [m], whose last state is
    the initial one: the states have different numbers and the given labels and
    rates, and no transition leaves them or the initial state for another state. *)
Definition numbers (m : pctmc R) (P : nat * nat -> Prop) (id : nat * nat -> nat) (label : nat * nat -> string)
    (start : nat * nat -> R) (rate : nat * nat -> nat * nat -> R) : Prop :=
  let last := (pc_n m - 1)%nat in
  (forall ab, P ab -> (id ab < last)%nat /\ nth (id ab) (pc_lab m) EmptyString = label ab) /\
  (forall ab cd, P ab -> P cd -> id ab = id cd -> ab = cd) /\
  (forall ab, P ab -> has_rate m (current m) last (id ab) (start ab)) /\
  (forall ab cd, P ab -> P cd -> has_rate m (current m) (id ab) (id cd) (rate ab cd)) /\
  (forall y, (y < pc_n m)%nat -> (forall cd, P cd -> id cd <> y) ->
     has_rate m (current m) last y 0 /\ forall ab, P ab -> has_rate m (current m) (id ab) y 0).
