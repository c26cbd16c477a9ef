(** Specification for C148: learning run round after round without end, and the
    models it approaches. *)
From Coq Require Import String ZArith Bool Reals List.
From Verif Require Import Num Py SNum SPath MSet MModels MLik MBW SBW SLik.
Import ListNotations.
Local Open Scope R_scope.

(** The models of an endless sequence of rounds. *)
Definition endless {M} (round : M -> res (M * R)) (it : nat -> M) : Prop := forall k, exists ll, round (it k) = Ok (it (S k), ll).
(** The numbers of the rounds of a subsequence. *)
Definition grows (f : nat -> nat) : Prop := forall k, (f k < f (S k))%nat.

(** Entry by entry convergence to a matrix of the same shape. *)
Definition mat_tends (rows cols : nat) (x : nat -> list (list R)) (a : list (list R)) : Prop :=
  length a = rows /\ (forall r, In r a -> length r = cols) /\
  forall s j, (s < rows)%nat -> (j < cols)%nat -> Un_cv (fun k => matR (x k) s j) (matR a s j).
Definition vec_tends (n : nat) (x : nat -> list R) (v : list R) : Prop :=
  length v = n /\ forall s, (s < n)%nat -> Un_cv (fun k => vecR (x k) s) (vecR v s).

(** Convergence of the parameters that learning changes; the rest is equal. *)
Definition mc_tends (x : nat -> mc R) (m : mc R) : Prop :=
  (forall k, mc_n (x k) = mc_n m /\ mc_lab (x k) = mc_lab m /\ mc_ini (x k) = mc_ini m /\ mc_name (x k) = mc_name m) /\
  mat_tends (mc_n m) (mc_n m) (fun k => mc_mat (x k)) (mc_mat m).
Definition hmm_tends (x : nat -> hmm R) (m : hmm R) : Prop :=
  (forall k, hmm_n (x k) = hmm_n m /\ hmm_alph (x k) = hmm_alph m /\ hmm_name (x k) = hmm_name m) /\
  mat_tends (hmm_n m) (hmm_n m) (fun k => hmm_mat (x k)) (hmm_mat m) /\
  mat_tends (hmm_n m) (length (hmm_alph m)) (fun k => hmm_out (x k)) (hmm_out m) /\
  vec_tends (hmm_n m) (fun k => hmm_ini (x k)) (hmm_ini m).
Definition mdp_tends (x : nat -> mdp R) (m : mdp R) : Prop :=
  (forall k, mdp_n (x k) = mdp_n m /\ mdp_lab (x k) = mdp_lab m /\ mdp_act (x k) = mdp_act m /\ mdp_ini (x k) = mdp_ini m /\ mdp_name (x k) = mdp_name m) /\
  (forall s, (s < mdp_n m)%nat -> mat_tends (length (mdp_act m)) (mdp_n m) (fun k => nth s (mdp_mat (x k)) []) (nth s (mdp_mat m) [])).
Definition ct_tends (x : nat -> ctmc R) (m : ctmc R) : Prop :=
  (forall k, ct_n (x k) = ct_n m /\ ct_lab (x k) = ct_lab m /\ ct_ini (x k) = ct_ini m /\ ct_name (x k) = ct_name m) /\
  mat_tends (ct_n m) (ct_n m) (fun k => ct_mat (x k)) (ct_mat m).
Definition go_tends (d : nat) (x : nat -> gohmm R) (m : gohmm R) : Prop :=
  (forall k, go_n (x k) = go_n m /\ go_name (x k) = go_name m) /\
  mat_tends (go_n m) (go_n m) (fun k => go_mat (x k)) (go_mat m) /\
  vec_tends (go_n m) (fun k => go_ini (x k)) (go_ini m) /\
  length (go_out m) = go_n m /\ (forall r, In r (go_out m) -> length r = d) /\
  forall s j, (s < go_n m)%nat -> (j < d)%nat ->
    Un_cv (fun k => mean (x k) s j) (mean m s j) /\ Un_cv (fun k => stddev (x k) s j) (stddev m s j).
