(** Specification for C155: probability of a trace of an MDP under a scheduler. *)
From Coq Require Import String ZArith Bool Reals List.
From Verif Require Import Num SNum SPath SBW SLik MModels SLaw.
Import ListNotations.
Local Open Scope R_scope.

(** Action [a] can be taken in state s: its row is not all 0. *)
Definition available (m : mdp R) (s : nat) (a : string) : bool :=
  existsb (fun k => String.eqb (nth k (mdp_act m) EmptyString) a &&
                    if Rlt_dec 0 (rsum (nth k (nth s (mdp_mat m) []) [])) then true else false) (seq 0 (length (mdp_act m))).

Section Sched.
  (** In state [st] the scheduler chooses among the actions [acts st] with the
      probabilities [ps st]; [upd st l] is its next state when it observes l. *)
  Context {S : Type} (ps : S -> list R) (acts : S -> list string) (upd : S -> string -> S).
  (** Probability that it chooses [a], and that it chooses something available. *)
  Definition chosen (st : S) (a : string) : R :=
    Sum (length (acts st)) (fun j => if String.eqb (nth j (acts st) EmptyString) a then vecR (ps st) j else 0).
  Definition offered (m : mdp R) (st : S) (s : nat) : R :=
    Sum (length (acts st)) (fun j => if available m s (nth j (acts st) EmptyString) then vecR (ps st) j else 0).
  (** The chooser is asked again until the action is available: the probability
      of [a] is conditional on that. *)
  Definition taken (m : mdp R) (st : S) (s : nat) (a : string) : R :=
    if available m s a then chosen st a / offered m st s else 0.
  (** Probability of the rest of a trace from the state s. *)
  Fixpoint sched_prob (m : mdp R) (st : S) (s : nat) (tr : list string) : R :=
    match tr with
    | [] => 0
    | l :: [] => is_label (mdp_lab m) l s
    | l :: a :: tr' => is_label (mdp_lab m) l s * (taken m st s a * Sum (mdp_n m) (fun s' => act_mat m a s s' * sched_prob m (upd st l) s' tr'))
    end.
  (** Probability that the scheduler chooses the actions of the trace. *)
  Fixpoint all_chosen (st : S) (tr : list string) : R :=
    match tr with
    | l :: a :: tr' => chosen st a * all_chosen (upd st l) tr'
    | _ => 1
    end.
End Sched.

(** The first draws of the list are in the box. *)
Fixpoint starts_in (b : list (R * R)) (draws : list R) : Prop :=
  match b, draws with
  | [], _ => True
  | ab :: b', r :: draws' => within ab r /\ starts_in b' draws'
  | _ :: _, [] => False
  end.
