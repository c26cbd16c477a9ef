(** Specification for C159: following a trace in a chain whose transitions are
    determined by the labels. *)
From Coq Require Import String ZArith Bool Reals List.
From Verif Require Import Num SNum MModels SAlergia.
Import ListNotations.
Local Open Scope R_scope.

(** Product of the numbers [A] along a list of states. *)
Fixpoint along (A : nat -> nat -> R) (x : list nat) : R :=
  match x with
  | i :: ((j :: _) as r) => A i j * along A r
  | _ => 1
  end.
(** States read along a trace: one per non-empty prefix. *)
Definition states_of (f : list string -> nat) (t : list string) : list nat := map (fun p => f (firstn p t)) (seq 1 (length t)).
(** [m'] has the states, the labels and the initial state of [m], and transitions only where
    [m] has some. *)
Definition within (m m' : mc R) : Prop :=
  mc_n m' = mc_n m /\ mc_lab m' = mc_lab m /\ mc_ini m' = mc_ini m /\
  forall i j, (i < mc_n m)%nat -> (j < mc_n m)%nat -> matR (mc_mat m) i j = 0 -> matR (mc_mat m') i j = 0.
(** The non-empty prefixes of the traces. *)
Definition prefix_of (T : list (list string * Z)) (w : list string) : Prop := exists t n, In (t, n) T /\ w <> [] /\ starts w t = true.
