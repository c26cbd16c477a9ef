(** Expected counts given a trace (unnormalised: sums over all paths of weight
    times reward; see [expected] and [set_expected] in SPath.v). *)
From Coq Require Import String ZArith Bool Reals List.
From Verif Require Import Num SNum SPath MSet MModels MLik SBW SLik.
Import ListNotations.
Local Open Scope R_scope.

Definition ind (b : bool) : R := if b then 1 else 0.

(** Moves from s to s', and moves from s, while reading the trace. *)
Definition mc_expected_moves (m : mc R) (s s' : nat) (tr : list string) : R :=
  expected (mc_n m) (vecR (mc_ini m)) (repeat (matR (mc_mat m)) (length tr))
    (map (is_label (mc_lab m)) tr ++ [fun _ => 1]) (map (fun _ => on_move s s' 1) tr).
Definition mc_expected_visits (m : mc R) (s : nat) (tr : list string) : R :=
  expected (mc_n m) (vecR (mc_ini m)) (repeat (matR (mc_mat m)) (length tr))
    (map (is_label (mc_lab m)) tr ++ [fun _ => 1]) (map (fun _ => on_leave s 1) tr).

Definition hmm_expected (m : hmm R) (g : string -> nat -> nat -> R) (tr : list string) : R :=
  expected (hmm_n m) (vecR (hmm_ini m)) (repeat (matR (hmm_mat m)) (length tr))
    (map (emit m) tr ++ [fun _ => 1]) (map g tr).
Definition hmm_expected_moves (m : hmm R) (s s' : nat) := hmm_expected m (fun _ => on_move s s' 1).
Definition hmm_expected_visits (m : hmm R) (s : nat) := hmm_expected m (fun _ => on_leave s 1).
(** Emissions of [o] in s. *)
Definition hmm_expected_emissions (m : hmm R) (s : nat) (o : string) :=
  hmm_expected m (fun x => on_leave s (ind (String.eqb x o))).
(** Paths starting in s. *)
Definition hmm_expected_starts (m : hmm R) (s : nat) (tr : list string) : R :=
  trace_prob (hmm_n m) (fun i => if Nat.eqb i s then vecR (hmm_ini m) i else 0) (repeat (matR (hmm_mat m)) (length tr))
    (map (emit m) tr ++ [fun _ => 1]).

(** MDP: moves under an action. *)
Definition mdp_expected (m : mdp R) (g : string -> nat -> nat -> R) (tr : list string) : R :=
  expected (mdp_n m) (vecR (mdp_ini m)) (map (act_mat m) (odds tr)) (map (is_label (mdp_lab m)) (evens tr)) (map g (odds tr)).
Definition mdp_expected_moves (m : mdp R) (s : nat) (a : string) (s' : nat) :=
  mdp_expected m (fun x => on_move s s' (ind (String.eqb x a))).
Definition mdp_expected_visits (m : mdp R) (s : nat) (a : string) :=
  mdp_expected m (fun x => on_leave s (ind (String.eqb x a))).

(** CTMC with dwell times: moves, and time spent. *)
Definition ct_expected (m : ctmc R) (g : R -> nat -> nat -> R) (tr : list string * list R) : R :=
  expected (ct_n m) (vecR (ct_ini m)) (map (jump_density m) (snd tr)) (map (is_label (ct_lab m)) (fst tr)) (map g (snd tr)).
Definition ct_expected_moves (m : ctmc R) (s s' : nat) := ct_expected m (fun _ => on_move s s' 1).
Definition ct_expected_dwell (m : ctmc R) (s : nat) := ct_expected m (fun t => on_leave s t).

(** GoHMM. *)
Definition go_expected (m : gohmm R) (g : list R -> nat -> nat -> R) (tr : list (list R)) : R :=
  expected (go_n m) (vecR (go_ini m)) (repeat (matR (go_mat m)) (length tr))
    (map (go_density m) tr ++ [fun _ => 1]) (map g tr).
Definition go_expected_moves (m : gohmm R) (s s' : nat) := go_expected m (fun _ => on_move s s' 1).
Definition go_expected_visits (m : gohmm R) (s : nat) := go_expected m (fun _ => on_leave s 1).
(** Sum of a function of the k-th component of the observations made in s. *)
Definition go_expected_sum (m : gohmm R) (s k : nat) (h : R -> R) :=
  go_expected m (fun o => on_leave s (h (nth k o 0))).
Definition go_expected_starts (m : gohmm R) (s : nat) (tr : list (list R)) : R :=
  trace_prob (go_n m) (fun i => if Nat.eqb i s then vecR (go_ini m) i else 0) (repeat (matR (go_mat m)) (length tr))
    (map (go_density m) tr ++ [fun _ => 1]).
