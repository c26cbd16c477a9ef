(** Vocabulary for the statements about IOAlergia. *)
From Coq Require Import String ZArith Bool Reals List.
From Verif Require Import Num SNum MSet MModels SSet SAlergia SLik.
Import ListNotations.

(** Training sets of MDP traces: alternating sequences starting and ending with an
    observation, stored once each, with at least one action. *)
Definition io_usable (s : tset (list string)) : Prop :=
  wf_set s /\ pos_set s /\ (forall t, In t (seqs s) -> Nat.odd (length t) = true) /\ exists t, In t (seqs s) /\ (3 <= length t)%nat.

(** [w] is a prefix of a training trace and ends with an observation. *)
Definition seen (T : list (list string * Z)) (w : list string) : Prop :=
  Nat.odd (length w) = true /\ exists t n, In (t, n) T /\ starts w t = true.

(** The prefixes that IOAlergia takes into account: among those of length 1 it only
    keeps the first one, [o0]. *)
Definition kept (T : list (list string * Z)) (o0 : string) (w : list string) : Prop :=
  seen T w /\ (w = [o0] \/ length w <> 1%nat).

(** Action [a] leads from state [i] to state [j], in some trace read with [f]. *)
Definition leads (T : list (list string * Z)) (o0 : string) (f : list string -> nat) (i : nat) (a : string) (j : nat) : Prop :=
  exists w o, kept T o0 w /\ f w = i /\ seen T (w ++ [a; o]) /\ f (w ++ [a; o]) = j.

(** [D] is the distribution over the [n] states reached from state [i] by [a]: it
    charges the states reached in the traces, and the weights are proportional to
    the number of traces with one of the corresponding prefixes. *)
Definition learned_dist (T : list (list string * Z)) (o0 : string) (f : list string -> nat) (n i : nat) (a : string) (D : list R) : Prop :=
  length D = n /\ is_dist D /\ exists c : nat -> Z,
    (forall j, (j < n)%nat -> vecR D j = (IZR (c j) / IZR (fold_right (fun j x => (c j + x)%Z) 0%Z (seq 0 n)))%R) /\
    (forall j, (0 <= c j)%Z) /\
    (forall j, (j < n)%nat -> (0 < c j)%Z <-> leads T o0 f i a j) /\
    forall j, (0 < c j)%Z -> exists w o, kept T o0 w /\ f w = i /\ f (w ++ [a; o]) = j /\ seen T (w ++ [a; o]) /\ c j = pcount T (w ++ [a; o]).

(** [m] is read off the traces [T] with [f], from prefixes to states. [rows i] lists
    the actions used for the successive rows of state [i].  The last state is an
    additional one. *)
Record io_model (T : list (list string * Z)) (m : mdp R) (o0 : string) (f : list string -> nat) (rows : nat -> list string) : Prop := {
  io_size : exists k, mdp_n m = S k /\ (0 < k)%nat;
  io_shape : wf_mdp m;
  io_acts : sorted_by String.leb (mdp_act m) /\ forall a, In a (mdp_act m) <-> at_odd (map fst T) a;
  io_o0 : seen T [o0] /\ (forall o, seen T [o] -> String.leb o0 o = true) /\ f [o0] = O;
  io_labels : forall w, kept T o0 w -> (S (f w) < mdp_n m)%nat /\ nth (f w) (mdp_lab m) EmptyString = last w EmptyString;
  io_onto : forall i, (S i < mdp_n m)%nat -> exists w, kept T o0 w /\ f w = i;
  io_rows : forall i, (S i < mdp_n m)%nat -> exists p : string -> bool,
     (forall a, p a = true <-> exists j, leads T o0 f i a j) /\ rows i = filter p (mdp_act m) /\
     (forall q, (q < length (rows i))%nat -> learned_dist T o0 f (mdp_n m) i (nth q (rows i) EmptyString) (nth q (nth i (mdp_mat m) []) [])) /\
     forall q, (length (rows i) <= q < length (mdp_act m))%nat -> nth q (nth i (mdp_mat m) []) [] = repeat 0%R (mdp_n m);
  io_det : forall i a j1 j2, leads T o0 f i a j1 -> leads T o0 f i a j2 ->
     nth j1 (mdp_lab m) EmptyString = nth j2 (mdp_lab m) EmptyString -> j1 = j2;
  io_last : nth (mdp_n m - 1) (mdp_lab m) EmptyString = "init"%string /\
     nth (mdp_n m - 1) (mdp_mat m) [] = (1%R :: repeat 0%R (mdp_n m - 1)) :: repeat (repeat 0%R (mdp_n m)) (length (mdp_act m) - 1) }.
