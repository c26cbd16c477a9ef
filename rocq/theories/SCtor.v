(** Specification vocabulary for the constructors and create functions. *)
From Coq Require Import String ZArith Reals List Sorting.
From Verif Require Import SNum.
Import ListNotations.
Local Open Scope R_scope.

(** A row sum accepted by the constructors: within 0.0005 of 1 or of 0. *)
Definition row_ok (x : R) : Prop := Rabs (x - 1) <= 1/2000 \/ Rabs x <= 1/2000.

(** [v] is the value of the last tuple of [ts] selected by [sel]; 0 if none is. *)
Definition last_value {T} (sel : T -> Prop) (val : T -> R) (ts : list T) (v : R) : Prop :=
  (exists l1 t l2, ts = l1 ++ t :: l2 /\ sel t /\ (forall u, In u l2 -> ~ sel u) /\ v = val t) \/
  ((forall t, In t ts -> ~ sel t) /\ v = 0).

(** The ids mentioned in a list of transitions (source, destination, value), in
    increasing order. *)
Definition src {V} (t : Z * Z * V) : Z := fst (fst t).
Definition dst {V} (t : Z * Z * V) : Z := snd (fst t).
Definition ids_of (mentioned : list Z) (sts : list Z) : Prop :=
  StronglySorted Z.lt sts /\ forall z, In z sts <-> In z mentioned.
Definition mentioned {V} (ts : list (Z * Z * V)) : list Z := map src ts ++ map dst ts.

(** [D a b] is the last value given for the transition from the a-th to the b-th
    id (0 if there is none). *)
Definition described {V} (val : Z * Z * V -> R) (ts : list (Z * Z * V)) (sts : list Z) (D : nat -> nat -> R) : Prop :=
  forall a b, (a < length sts)%nat -> (b < length sts)%nat ->
    last_value (fun t => src t = nth a sts 0%Z /\ dst t = nth b sts 0%Z) val ts (D a b).

(** Number of labels equal to [l]. *)
Definition label_count (l : string) (labels : list string) : nat :=
  length (filter (String.eqb l) labels).
