(** Specification for C144: the same model written differently. *)
From Coq Require Import String ZArith Reals List.
From Verif Require Import Num Py SNum SLik MModels.
Import ListNotations.
Local Open Scope R_scope.

(** [f] renumbers the states 0..n-1. *)
Definition renumbering (n : nat) (f : nat -> nat) : Prop :=
  (forall i, (i < n)%nat -> (f i < n)%nat) /\ (forall i j, (i < n)%nat -> (j < n)%nat -> f i = f j -> i = j).
(** [g] renames without confusing two names. *)
Definition renaming (g : string -> string) : Prop := forall x y, g x = g y -> x = y.

(** The set with each trace rewritten by [h] and each count multiplied by [c]. *)
Definition rewritten {S S2} (h : S -> S2) (c : Z) (set : list (S * Z)) : list (S2 * Z) :=
  map (fun st => (h (fst st), (c * snd st)%Z)) set.

(** [m2] is [m] with states renumbered by [f] (state [i] of [m2] is state [f i] of
    [m]) and labels renamed by [g]. *)
Definition same_mc (f : nat -> nat) (g : string -> string) (m m2 : mc R) : Prop :=
  mc_n m2 = mc_n m /\
  (forall i, (i < mc_n m)%nat -> nth i (mc_lab m2) EmptyString = g (nth (f i) (mc_lab m) EmptyString)) /\
  (forall i, (i < mc_n m)%nat -> vecR (mc_ini m2) i = vecR (mc_ini m) (f i)) /\
  (forall i j, (i < mc_n m)%nat -> (j < mc_n m)%nat -> matR (mc_mat m2) i j = matR (mc_mat m) (f i) (f j)).
Definition same_hmm (f : nat -> nat) (g : string -> string) (m m2 : hmm R) : Prop :=
  hmm_n m2 = hmm_n m /\ hmm_alph m2 = map g (hmm_alph m) /\
  (forall i, (i < hmm_n m)%nat -> vecR (hmm_ini m2) i = vecR (hmm_ini m) (f i)) /\
  (forall i j, (i < hmm_n m)%nat -> (j < hmm_n m)%nat -> matR (hmm_mat m2) i j = matR (hmm_mat m) (f i) (f j)) /\
  (forall i j, (i < hmm_n m)%nat -> (j < length (hmm_alph m))%nat -> matR (hmm_out m2) i j = matR (hmm_out m) (f i) j).
(** Labels renamed by [g], actions by [h]. *)
Definition same_mdp (f : nat -> nat) (g h : string -> string) (m m2 : mdp R) : Prop :=
  mdp_n m2 = mdp_n m /\ mdp_act m2 = map h (mdp_act m) /\
  (forall i, (i < mdp_n m)%nat -> nth i (mdp_lab m2) EmptyString = g (nth (f i) (mdp_lab m) EmptyString)) /\
  (forall i, (i < mdp_n m)%nat -> vecR (mdp_ini m2) i = vecR (mdp_ini m) (f i)) /\
  (forall i a j, (i < mdp_n m)%nat -> (a < length (mdp_act m))%nat -> (j < mdp_n m)%nat ->
     matR (nth i (mdp_mat m2) []) a j = matR (nth (f i) (mdp_mat m) []) a (f j)).
(** An alternating trace: observations renamed by [g], actions by [h]. *)
Fixpoint rename2 (g h : string -> string) (tr : list string) : list string :=
  match tr with
  | [] => []
  | [o] => [g o]
  | o :: a :: tr' => g o :: h a :: rename2 g h tr'
  end.
(** Rates multiplied by [k]: time measured in units [k] times longer. *)
Definition same_ctmc (f : nat -> nat) (g : string -> string) (k : R) (m m2 : ctmc R) : Prop :=
  ct_n m2 = ct_n m /\
  (forall i, (i < ct_n m)%nat -> nth i (ct_lab m2) EmptyString = g (nth (f i) (ct_lab m) EmptyString)) /\
  (forall i, (i < ct_n m)%nat -> vecR (ct_ini m2) i = vecR (ct_ini m) (f i)) /\
  (forall i j, (i < ct_n m)%nat -> (j < ct_n m)%nat -> matR (ct_mat m2) i j = k * matR (ct_mat m) (f i) (f j)).
Definition retimed (g : string -> string) (k : R) (tr : list string * list R) : list string * list R :=
  (map g (fst tr), map (fun t => t / k) (snd tr)).
(** The [q]-th component of the outputs measured on another scale: x becomes
    [u q * x + v q]. *)
Definition same_gohmm (d : nat) (f : nat -> nat) (u v : nat -> R) (m m2 : gohmm R) : Prop :=
  go_n m2 = go_n m /\
  (forall i, (i < go_n m)%nat -> vecR (go_ini m2) i = vecR (go_ini m) (f i)) /\
  (forall i j, (i < go_n m)%nat -> (j < go_n m)%nat -> matR (go_mat m2) i j = matR (go_mat m) (f i) (f j)) /\
  (forall i q, (i < go_n m)%nat -> (q < d)%nat ->
     mean m2 i q = u q * mean m (f i) q + v q /\ stddev m2 i q = u q * stddev m (f i) q).
Definition rescaled (u v : nat -> R) (tr : list (list R)) : list (list R) :=
  map (fun o => map (fun q => u q * nth q o 0 + v q) (seq 0 (length o))) tr.

(** Two results that correspond: the models by [Rel], the log-likelihood
    multiplied by [c] and shifted by [d]. *)
Definition same_round {M} (Rel : M -> M -> Prop) (c d : R) (r r2 : res (M * R)) : Prop :=
  match r, r2 with
  | Ok (m, ll), Ok (m2, ll2) => Rel m m2 /\ ll2 = c * ll + d
  | Err e, Err e2 => e2 = e
  | _, _ => False
  end.
Definition same_fit {M} (Rel : M -> M -> Prop) (c d : R) (r r2 : res (M * nat * option R * bool)) : Prop :=
  match r, r2 with
  | Ok (m, k, ll, stop), Ok (m2, k2, ll2, stop2) =>
      Rel m m2 /\ k2 = k /\ stop2 = stop /\ ll2 = option_map (fun x => c * x + d) ll
  | Err e, Err e2 => e2 = e
  | _, _ => False
  end.

(** Number of moves in the possible traces of the set. *)
Definition set_moves {T} (prob : T -> R) (moves : T -> nat) (set : list (T * Z)) : R :=
  sumL set (fun st => if Rlt_dec 0 (prob (fst st)) then IZR (snd st) * INR (moves (fst st)) else 0).
