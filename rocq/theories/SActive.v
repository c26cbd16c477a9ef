(** Specification vocabulary for active learning. *)
From Coq Require Import String ZArith Bool Reals List.
From Verif Require Import Num Py SNum SPath SBW SLik MModels MActive.
Import ListNotations.
Local Open Scope R_scope.

(** Probability, under the model [m], of observing the labels of [hist] while its
    actions are taken, and of being in state [s] after the last action: a sum
    over state paths.  [hist] lists (observation, action) pairs. *)
Definition state_prob (m : mdp R) (hist : list (string * string)) (s : nat) : R :=
  trace_prob (mdp_n m) (vecR (mdp_ini m)) (map (act_mat m) (map snd hist))
    (map (is_label (mdp_lab m)) (map fst hist) ++ [fun i => if Nat.eqb i s then 1 else 0]).
Definition hist_prob (m : mdp R) (hist : list (string * string)) : R := Sum (mdp_n m) (state_prob m hist).

(** The scheduler is told a history: each time the action it proposed last
    (given by its index) and the observation made. *)
Fixpoint told (h : mdp R) (st : al_state R) (hist : list (string * nat)) : res (al_state R) :=
  match hist with
  | [] => Ok st
  | (o, k) :: hist' =>
    match al_addObservation h (mkAL (al_mat st) (al_belief st) (Some k)) o with
    | Err e => Err e
    | Ok st' => told h st' hist'
    end
  end.
(** The same history with the names of the actions. *)
Definition named (h : mdp R) (hist : list (string * nat)) : list (string * string) :=
  map (fun x => (fst x, nth (snd x) (mdp_act h) EmptyString)) hist.
(** Expected number of times action [j] was taken in state [s] in the history,
    each time estimated from the past of that moment; impossible pasts count for
    nothing. *)
Definition uses (h : mdp R) (hist : list (string * nat)) (s j : nat) : R :=
  Sum (length hist) (fun t =>
    if Nat.eqb (snd (nth t hist (EmptyString, O))) j then
      if Rlt_dec 0 (hist_prob h (named h (firstn t hist)))
      then state_prob h (named h (firstn t hist)) s / hist_prob h (named h (firstn t hist)) else 0
    else 0).
