(** Vocabulary for the statements about Alergia. *)
From Coq Require Import String ZArith Bool Reals List.
From Verif Require Import Num SNum MModels.
Import ListNotations.

(** [w] is a prefix of [t]. *)
Fixpoint starts (w t : list string) : bool :=
  match w, t with
  | [], _ => true
  | a :: w', b :: t' => String.eqb a b && starts w' t'
  | _ :: _, [] => false
  end.

(** Number of traces (with multiplicities) starting with [w]. *)
Definition pcount (T : list (list string * Z)) (w : list string) : Z :=
  fold_right (fun tm a => ((if starts w (fst tm) then snd tm else 0) + a)%Z) 0%Z T.

(** Number of positions p >= 1 where the trace [t], read with the map [f] from
    prefixes to states, goes from state [i] to state [j]. *)
Definition moves (f : list string -> nat) (t : list string) (i j : nat) : nat :=
  length (filter (fun p => (f (firstn p t) =? i)%nat && (f (firstn (S p) t) =? j)%nat) (seq 1 (length t - 1))).
Definition visits (f : list string -> nat) (T : list (list string * Z)) (i j : nat) : Z :=
  fold_right (fun tm a => (snd tm * Z.of_nat (moves f (fst tm) i j) + a)%Z) 0%Z T.
(** Number of traces passing from [i] to any of the [n] states. *)
Definition visits_from (f : list string -> nat) (T : list (list string * Z)) (n i : nat) : Z :=
  fold_right (fun j a => (visits f T i j + a)%Z) 0%Z (seq 0 n).

(** [m] is a deterministic quotient of the traces [T], all starting with 'init':
    reading a trace leads from state to state, the label of the state is the symbol
    read, every state is reached, and the probability of a transition is its
    frequency among the traces passing by its source. *)
Record quotient (T : list (list string * Z)) (m : mc R) (f : list string -> nat) : Prop := {
  q_start : f ["init"%string] = O /\ (0 < mc_n m)%nat /\ nth 0 (mc_lab m) EmptyString = "init"%string;
  q_label : forall t n w o, In (t, n) T -> starts (w ++ [o]) t = true ->
    (f (w ++ [o]) < mc_n m)%nat /\ nth (f (w ++ [o])) (mc_lab m) EmptyString = o;
  q_onto : forall i, (i < mc_n m)%nat -> i = O \/ exists t n w, In (t, n) T /\ w <> [] /\ starts w t = true /\ f w = i;
  q_freq : forall i j, (i < mc_n m)%nat -> (j < mc_n m)%nat ->
    (visits_from f T (mc_n m) i = 0%Z -> matR (mc_mat m) i j = 0%R) /\
    (visits_from f T (mc_n m) i <> 0%Z -> matR (mc_mat m) i j = (IZR (visits f T i j) / IZR (visits_from f T (mc_n m) i))%R);
  q_det : forall i j k, (i < mc_n m)%nat -> (j < mc_n m)%nat -> (k < mc_n m)%nat ->
    (0 < matR (mc_mat m) i j)%R -> (0 < matR (mc_mat m) i k)%R -> nth j (mc_lab m) EmptyString = nth k (mc_lab m) EmptyString -> j = k }.
