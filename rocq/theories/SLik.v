(** Specification of trace probabilities (or densities) for each class of
    models, as sums over state paths. *)
From Coq Require Import String ZArith Bool Reals List.
From Verif Require Import Num SNum SPath MSet MModels MLik SBW.
Import ListNotations.
Local Open Scope R_scope.

(** All words of length T over an alphabet. *)
Fixpoint words {O} (alph : list O) (T : nat) : list (list O) :=
  match T with
  | O => [[]]
  | S T' => flat_map (fun o => map (cons o) (words alph T')) alph
  end.

(** ** Hidden Markov models *)

Definition wf_hmm (m : hmm R) : Prop :=
  square (hmm_n m) (hmm_mat m) /\ length (hmm_out m) = hmm_n m /\
  (forall r, In r (hmm_out m) -> length r = length (hmm_alph m)) /\
  NoDup (hmm_alph m) /\ length (hmm_ini m) = hmm_n m /\ nonneg (hmm_ini m).

(** Probability of emitting [o] in state [s]. *)
Definition emit (m : hmm R) (o : string) (s : nat) : R :=
  Sum (length (hmm_alph m)) (fun i => if String.eqb (nth i (hmm_alph m) EmptyString) o then matR (hmm_out m) s i else 0).

Definition hmm_trace_prob (m : hmm R) (tr : list string) : R :=
  trace_prob (hmm_n m) (vecR (hmm_ini m)) (repeat (matR (hmm_mat m)) (length tr - 1)) (map (emit m) tr).
(** Followed by one more move. *)
Definition hmm_trace_prob_move (m : hmm R) (tr : list string) : R :=
  trace_prob (hmm_n m) (vecR (hmm_ini m)) (repeat (matR (hmm_mat m)) (length tr)) (map (emit m) tr ++ [fun _ => 1]).

(** ** Markov decision processes *)

(** Elements at even and odd positions of an alternating sequence. *)
Fixpoint evens {E} (l : list E) : list E := match l with [] => [] | x :: l' => x :: odds l' end
with odds {E} (l : list E) : list E := match l with [] => [] | _ :: l' => evens l' end.

Definition wf_mdp (m : mdp R) : Prop :=
  (forall ra, In ra (mdp_mat m) -> length ra = length (mdp_act m) /\ forall r, In r ra -> length r = mdp_n m) /\
  length (mdp_lab m) = mdp_n m /\ NoDup (mdp_act m) /\ length (mdp_ini m) = mdp_n m /\ nonneg (mdp_ini m).

(** Transition probabilities under an action (0 for an unknown one). *)
Definition act_mat (m : mdp R) (a : string) (s s' : nat) : R :=
  Sum (length (mdp_act m)) (fun i => if String.eqb (nth i (mdp_act m) EmptyString) a
                                     then nth s' (nth i (nth s (mdp_mat m) []) []) 0 else 0).

Definition mdp_trace_prob (m : mdp R) (tr : list string) : R :=
  trace_prob (mdp_n m) (vecR (mdp_ini m)) (map (act_mat m) (odds tr)) (map (is_label (mdp_lab m)) (evens tr)).

(** ** Continuous-time Markov chains *)

Definition wf_ctmc (m : ctmc R) : Prop :=
  square (ct_n m) (ct_mat m) /\ length (ct_lab m) = ct_n m /\ length (ct_ini m) = ct_n m /\ nonneg (ct_ini m).

(** Exit rate, jump probabilities. *)
Definition exit_rate (m : ctmc R) (s : nat) : R := rsum (nth s (ct_mat m) []).
Definition jump (m : ctmc R) (s s' : nat) : R := matR (ct_mat m) s s' / exit_rate m s.

Definition ct_trace_prob (m : ctmc R) (tr : list string) : R :=
  trace_prob (ct_n m) (vecR (ct_ini m)) (repeat (jump m) (length tr - 1)) (map (is_label (ct_lab m)) tr).

(** Density of staying [t] in s and then jumping to s'. *)
Definition jump_density (m : ctmc R) (t : R) (s s' : nat) : R :=
  matR (ct_mat m) s s' * exp (- (exit_rate m s * t)).
Definition ct_density (m : ctmc R) (tr : list string * list R) : R :=
  trace_prob (ct_n m) (vecR (ct_ini m)) (map (jump_density m) (snd tr)) (map (is_label (ct_lab m)) (fst tr)).

(** ** HMMs with Gaussian outputs *)

Definition wf_gohmm (d : nat) (m : gohmm R) : Prop :=
  square (go_n m) (go_mat m) /\ length (go_out m) = go_n m /\
  (forall r, In r (go_out m) -> length r = d) /\ length (go_ini m) = go_n m /\ nonneg (go_ini m).
Definition mean (m : gohmm R) (s k : nat) : R := fst (nth k (nth s (go_out m) []) (0, 0)).
Definition stddev (m : gohmm R) (s k : nat) : R := snd (nth k (nth s (go_out m) []) (0, 0)).

(** Density of the normal distribution. *)
Definition normal (mu sigma x : R) : R := exp (- ((x - mu) ^ 2 / (2 * sigma ^ 2))) / sqrt (2 * PI * sigma ^ 2).
(** Density of a vector of independent components. *)
Definition go_density (m : gohmm R) (o : list R) (s : nat) : R :=
  fold_right Rmult 1 (map (fun k => normal (mean m s k) (stddev m s k) (nth k o 0)) (seq 0 (length o))).
Definition go_trace_density (m : gohmm R) (tr : list (list R)) : R :=
  trace_prob (go_n m) (vecR (go_ini m)) (repeat (matR (go_mat m)) (length tr - 1)) (map (go_density m) tr).
Definition go_trace_density_move (m : gohmm R) (tr : list (list R)) : R :=
  trace_prob (go_n m) (vecR (go_ini m)) (repeat (matR (go_mat m)) (length tr)) (map (go_density m) tr ++ [fun _ => 1]).

(** Average log-likelihood of a set, as documented. *)
Definition avg_ll {T} (prob : T -> R) (set : list (T * Z)) : R :=
  set_ll prob set / IZR (zsum (map snd set)).
