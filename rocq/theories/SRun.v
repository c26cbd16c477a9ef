(** Specification vocabulary for simulation. *)
From Coq Require Import String ZArith Bool Reals List.
From Verif Require Import Num SNum SBW SLik MModels MRun.
Import ListNotations.
Local Open Scope R_scope.

(** Entry [k] of the distribution [p] is selected by the draw [r]: its
    probability is positive and [r] lies in its interval of length [p_k]. *)
Definition selected (p : list R) (r : R) (k : nat) : Prop :=
  (k < length p)%nat /\ 0 < vecR p k /\
  (rsum (firstn k p) < r <= rsum (firstn k p) + vecR p k \/ (r = 0 /\ rsum (firstn k p) = 0)).

(** From [s] the states [x] are visited, the k-th move selected by the draw
    number [i + k]. *)
Fixpoint follows (row : nat -> list R) (draws : nat -> R) (i s : nat) (x : list nat) : Prop :=
  match x with
  | [] => True
  | s' :: x' => selected (row s) (draws i) s' /\ follows row draws (S i) s' x'
  end.

(** Same with an emission per step: move, then symbol, for each state left. *)
Fixpoint hmm_follows (row out : nat -> list R) (draws : nat -> R) (i s : nat) (x : list (nat * nat)) : Prop :=
  match x with
  | [] => True
  | (s', o) :: x' => selected (row s) (draws i) s' /\ selected (out s) (draws (S i)) o /\
                     hmm_follows row out draws (S (S i)) s' x'
  end.

(** Path of an MDP: actions and the states they lead to.  Each action is known,
    its row in the state left is not empty, and the move is selected in that
    row by one of the draws. *)
Fixpoint mdp_path (m : mdp R) (draws : list R) (s : nat) (x : list (string * nat)) : Prop :=
  match x with
  | [] => True
  | (a, s') :: x' =>
    (exists k r, (k < length (mdp_act m))%nat /\ nth k (mdp_act m) EmptyString = a /\
                 0 < rsum (nth k (nth s (mdp_mat m) []) []) /\
                 In r draws /\ selected (nth k (nth s (mdp_mat m) []) []) r s') /\
    mdp_path m draws s' x'
  end.
Definition mdp_trace (m : mdp R) (s : nat) (x : list (string * nat)) : list string :=
  nth s (mdp_lab m) EmptyString :: flat_map (fun p => [fst p; nth (snd p) (mdp_lab m) EmptyString]) x.

Definition unit_draw (r : R) : Prop := 0 <= r < 1.

(** The sizes asked for by the arguments of generateSet. *)
Definition requested (param : pyparam) (geo : option (nat -> Z)) (min_size : option Z) (k : nat) (size : nat -> Z) : Prop :=
  match geo, param with
  | Some g, _ => exists z, min_size = Some z /\ forall i, (i < k)%nat -> size i = (z + g i)%Z
  | None, PInt z => forall i, (i < k)%nat -> size i = z
  | None, PList l => (k <= length l)%nat /\ forall i, (i < k)%nat -> size i = nth i l 0%Z
  | None, POther => k = O
  end.
