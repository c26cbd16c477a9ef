(** Specification vocabulary: restriction of a parametric CTMC to some states. *)
From Coq Require Import String ZArith Bool Reals List.
From Verif Require Import SNum MPctmc SPctmc.
Import ListNotations.
Local Open Scope R_scope.

(** The states whose label is in [alphabet], in order. *)
Definition kept (alphabet : list string) (m : pctmc R) : list nat :=
  filter (fun s => if in_dec string_dec (nth s (pc_lab m) EmptyString) alphabet then true else false) (seq 0 (pc_n m)).
(** m' has the states [ks] of m, with their labels, initial probabilities, rates
    between them and the places where the parameters occur. *)
Definition restricted (ks : list nat) (m m' : pctmc R) : Prop :=
  pc_n m' = length ks /\ pc_par m' = pc_par m /\ (forall p, current m' p = current m p) /\ pc_name m' = pc_name m /\
  forall i, (i < length ks)%nat ->
    nth i (pc_lab m') EmptyString = nth (nth i ks O) (pc_lab m) EmptyString /\ vecR (pc_ini m') i = vecR (pc_ini m) (nth i ks O) /\
    forall j, (j < length ks)%nat -> transition m' i j = transition m (nth i ks O) (nth j ks O) /\
      forall p, In (Z.of_nat i, Z.of_nat j) (parameterIndexes m' p) <-> In (Z.of_nat (nth i ks O), Z.of_nat (nth j ks O)) (parameterIndexes m p).
(** No rate from a state of [ks] to a state outside of it. *)
Definition closed_in (ks : list nat) (m : pctmc R) : Prop :=
  forall s s', In s ks -> (s' < pc_n m)%nat -> ~ In s' ks -> has_rate m (current m) s s' 0.
