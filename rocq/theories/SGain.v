(** Specification for C145: by how much a round of learning moves a model. *)
From Coq Require Import String ZArith Bool Reals List.
From Verif Require Import Num Py SNum SPath MSet MModels MLik SBW SLik SExp.
Import ListNotations.
Local Open Scope R_scope.

(** Squared distance between the square roots of two rows (twice the squared
    Hellinger distance when they are distributions). *)
Definition moved (n : nat) (p q : nat -> R) : R := Sum n (fun j => (sqrt (q j) - sqrt (p j)) ^ 2).

(** Rows weighted by the expected number of times (or, with dwell times, the
    expected time) the model [m] uses them when it produces the set. *)
Definition mc_moved (set : list (list string * Z)) (m m' : mc R) : R :=
  Sum (mc_n m) (fun s => set_expected (mc_trace_prob_move m) (mc_expected_visits m s) set
                         * moved (mc_n m) (matR (mc_mat m) s) (matR (mc_mat m') s)).
Definition hmm_moved (set : list (list string * Z)) (m m' : hmm R) : R :=
  let E X := set_expected (hmm_trace_prob_move m) X set in
  Sum (hmm_n m) (fun s => E (hmm_expected_starts m s)) * moved (hmm_n m) (vecR (hmm_ini m)) (vecR (hmm_ini m'))
  + (Sum (hmm_n m) (fun s => E (hmm_expected_visits m s) * moved (hmm_n m) (matR (hmm_mat m) s) (matR (hmm_mat m') s))
     + Sum (hmm_n m) (fun s => E (hmm_expected_visits m s) * moved (length (hmm_alph m)) (matR (hmm_out m) s) (matR (hmm_out m') s))).
Definition mdp_moved (set : list (list string * Z)) (m m' : mdp R) : R :=
  Sum (mdp_n m) (fun s => Sum (length (mdp_act m)) (fun j =>
    set_expected (mdp_trace_prob m) (mdp_expected_visits m s (nth j (mdp_act m) EmptyString)) set
    * moved (mdp_n m) (fun s' => nth s' (nth j (nth s (mdp_mat m) []) []) 0)
                      (fun s' => nth s' (nth j (nth s (mdp_mat m') []) []) 0))).
Definition ct_moved (set : list ((list string * list R) * Z)) (m m' : ctmc R) : R :=
  Sum (ct_n m) (fun s => set_expected (ct_density m) (ct_expected_dwell m s) set
                         * moved (ct_n m) (matR (ct_mat m) s) (matR (ct_mat m') s)).
(** Gaussian outputs: relative moves of the mean and of the deviation. *)
Definition go_moved (d : nat) (set : list (list (list R) * Z)) (m m' : gohmm R) : R :=
  let E X := set_expected (go_trace_density_move m) X set in
  Sum (go_n m) (fun s => E (go_expected_starts m s)) * moved (go_n m) (vecR (go_ini m)) (vecR (go_ini m'))
  + (Sum (go_n m) (fun s => E (go_expected_visits m s) * moved (go_n m) (matR (go_mat m) s) (matR (go_mat m') s))
     + Sum (go_n m) (fun s => E (go_expected_visits m s) * Sum d (fun k =>
         (mean m' s k - mean m s k) ^ 2 / (2 * stddev m' s k ^ 2) + (stddev m' s k / stddev m s k - 1) ^ 2 / 2))).

(** k rounds from one model to another; [c] is the sum of the moves made. *)
Inductive rounds {M} (round : M -> res (M * R)) (change : M -> M -> R) : nat -> M -> M -> R -> Prop :=
| rounds_0 m : rounds round change 0 m m 0
| rounds_S k m m1 m' ll c : round m = Ok (m1, ll) -> rounds round change k m1 m' c ->
    rounds round change (S k) m m' (change m m1 + c).
