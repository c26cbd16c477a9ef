(** Specification vocabulary for the conversions from and to stormpy. *)
From Coq Require Import String Bool Reals List.
From Verif Require Import SNum SSet MModels MStorm.
Import ListNotations.
Local Open Scope R_scope.

(** What stormpy guarantees about a sparse model: as many rows as states, the
    labels of a state are a set, an action has at most one transition per column
    and its columns are states. *)
Definition well_formed {V} (h : sparse V R) : Prop :=
  length (sp_rows h) = length (sp_labels h) /\
  (forall L, In L (sp_labels h) -> NoDup L) /\
  (forall acts ts, In acts (sp_rows h) -> In ts acts -> NoDup (map fst ts) /\ forall j v, In (j, v) ts -> (j < length (sp_labels h))%nat).
(** One action per state (Markov chains). *)
Definition one_action {V} (h : sparse V R) : Prop := forall acts, In acts (sp_rows h) -> length acts = 1%nat.

(** The a-th action of state s. *)
Definition action {V} (h : sparse V R) (s a : nat) : list (nat * V) := nth a (nth s (sp_rows h) []) [].
(** [v] is the value of an action at column [j]; [zero] if it has no transition
    there. *)
Definition entry {V} (zero : V) (ts : list (nat * V)) (j : nat) (v : V) : Prop :=
  In (j, v) ts \/ ((forall w, ~ In (j, w) ts) /\ v = zero).

(** A state is marked when it carries the label init and another label than
    deadlock. *)
Definition marked (L : list string) : Prop := In "init"%string L /\ exists o, In o L /\ o <> "init"%string /\ o <> "deadlock"%string.
(** The labels shown: all but deadlock, and but init for a marked state. *)
Definition shown (L : list string) (o : string) : Prop := In o L /\ o <> "deadlock"%string /\ (o = "init"%string -> ~ marked L).
(** The text of a state: the shown labels in increasing order, separated by _;
    the text empty if there are none. *)
Definition state_text (L : list string) (t : string) : Prop :=
  exists l, NoDup l /\ sorted_by String.leb l /\ (forall o, In o l <-> shown L o) /\
            t = match l with [] => "empty"%string | _ => String.concat "_" l end.

(** The marked state, if there is one and only one. *)
Definition only_marked (ls : list (list string)) (o : option nat) : Prop :=
  match o with
  | None => forall s, (s < length ls)%nat -> ~ marked (nth s ls [])
  | Some s0 => (s0 < length ls)%nat /\ forall s, (s < length ls)%nat -> (marked (nth s ls []) <-> s = s0)
  end.
Definition extra (o : option nat) : nat := match o with None => 0 | Some _ => 1 end.
(** The labels of the converted model: the texts of the states, and the label
    init for the additional state. *)
Definition converted_labels (ls : list (list string)) (o : option nat) (labels : list string) : Prop :=
  length labels = (length ls + extra o)%nat /\
  (forall s, (s < length ls)%nat -> state_text (nth s ls []) (nth s labels EmptyString)) /\
  (o <> None -> nth (length ls) labels EmptyString = "init"%string).
(** The converted transition function: [D] between the [n] states; the
    additional state leads to the marked one and nothing leads to it. *)
Definition converted_matrix (n : nat) (D : nat -> nat -> R) (o : option nat) (M : list (list R)) : Prop :=
  length M = (n + extra o)%nat /\ (forall r, In r M -> length r = (n + extra o)%nat) /\
  (forall s j, (s < n)%nat -> (j < n)%nat -> matR M s j = D s j) /\
  match o with
  | None => True
  | Some s0 => (forall s, (s < n)%nat -> matR M s n = 0) /\
               (forall j, (j <= n)%nat -> matR M n j = if Nat.eqb j s0 then 1 else 0)
  end.

(** A state of a jajapy model carries one label; deadlock is a label that stormpy
    adds on its own, and the conversion from stormpy removes it. *)
Definition storm_label (l : string) : string := if String.eqb l "deadlock" then "empty"%string else l.
