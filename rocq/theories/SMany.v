(** Specification: the product of any number of parametric CTMCs (C165). *)
From Coq Require Import String Reals Arith List.
From Verif Require Import Num MPctmc SNum SPctmc SPCompose.
Import ListNotations.
Local Open Scope R_scope.

(** A part: its number of states, their labels, its initial rates, the model. *)
Record part := mkPart { p_n : nat; p_lab : list string; p_start : nat -> R; p_m : pctmc R }.
(** It is a component (C92) without a transition from a state to itself (the
    reference in the matrix is 0). *)
Definition good_part (p : part) : Prop :=
  pcomponent (p_n p) (p_lab p) (p_start p) (p_m p) /\ (0 < p_n p)%nat /\ (forall a, (a < p_n p)%nat -> nth a (nth a (pc_mat (p_m p)) []) O = O).

(** A state of the product: one state of each part.  All of them, in order. *)
Fixpoint tuples (ns : list nat) : list (list nat) :=
  match ns with [] => [[]] | n :: ns => flat_map (fun a => map (cons a) (tuples ns)) (seq 0 n) end.
(** Its label: the labels of the states, separated by commas. *)
Fixpoint tuple_labels (ps : list part) (t : list nat) : list string :=
  match ps, t with p :: ps, a :: t => nth a (p_lab p) EmptyString :: tuple_labels ps t | _, _ => [] end.
Definition tuple_label (ps : list part) (t : list nat) : string := String.concat "," (tuple_labels ps t).
(** The initial rate: the product of the initial rates. *)
Fixpoint tuple_start (ps : list part) (t : list nat) : R :=
  match ps, t with p :: ps, a :: t => p_start p a * tuple_start ps t | _, _ => 1 end.
(** The rate between two states for given values of the parameters: one of the
    parts moves and the others stay. *)
Fixpoint tuple_rate (rho : string -> R) (ps : list part) (t u : list nat) : R :=
  match ps, t, u with
  | p :: ps, a :: t, b :: u =>
      (if list_eq_dec Nat.eq_dec t u then denote rho (transition (p_m p) a b) else 0) + (if Nat.eqb a b then tuple_rate rho ps t u else 0)
  | _, _, _ => 0
  end.
(** Reachable for some values of the parameters. *)
Inductive treach (ps : list part) : list nat -> Prop :=
| treach_start t : In t (tuples (map p_n ps)) -> tuple_start ps t <> 0 -> treach ps t
| treach_step t u rho : treach ps t -> In u (tuples (map p_n ps)) -> tuple_rate rho ps t u <> 0 -> treach ps u.
