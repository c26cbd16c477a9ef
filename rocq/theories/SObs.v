(** Specification vocabulary for models whose labels are all different: what can
    be counted directly in the traces. *)
From Coq Require Import String ZArith Bool Reals List.
From Verif Require Import SNum SPath MModels SBW SLik.
Import ListNotations.
Local Open Scope R_scope.

(** How often [a] is directly followed by [b], each occurrence weighted by the
    number attached to its position. *)
Fixpoint seen (a b : string) (tr : list string) (c : list R) : R :=
  match tr, c with
  | o :: ((o' :: _) as r), x :: c' => (if String.eqb o a then if String.eqb o' b then x else 0 else 0) + seen a b r c'
  | _, _ => 0
  end.
(** How often [a] is followed by something, weighted in the same way. *)
Fixpoint left (a : string) (tr : list string) (c : list R) : R :=
  match tr, c with
  | o :: ((_ :: _) as r), x :: c' => (if String.eqb o a then x else 0) + left a r c'
  | _, _ => 0
  end.
(** 1 when the trace ends with [a]. *)
Fixpoint ends (a : string) (tr : list string) : R :=
  match tr with
  | [] => 0
  | [o] => if String.eqb o a then 1 else 0
  | _ :: r => ends a r
  end.
Definition ones (tr : list string) : list R := map (fun _ => 1) tr.

(** Totals over a weighted set. *)
Definition total {T} (f : T -> R) (set : list (T * Z)) : R := sumL set (fun st => IZR (snd st) * f (fst st)).
(** In a whole set: how often [a] is followed by [b], by anything, by nothing. *)
Definition moves_seen (a b : string) (set : list (list string * Z)) : R := total (fun tr => seen a b tr (ones tr)) set.
Definition times_left (a : string) (set : list (list string * Z)) : R := total (fun tr => left a tr (ones tr)) set.
Definition times_last (a : string) (set : list (list string * Z)) : R := total (ends a) set.

(** The chain moves, from every label that the traces leave, with the observed frequencies. *)
Definition mc_frequencies (set : list (list string * Z)) (m : mc R) : Prop :=
  forall s s', (s < mc_n m)%nat -> (s' < mc_n m)%nat ->
    let a := nth s (mc_lab m) EmptyString in
    let b := nth s' (mc_lab m) EmptyString in
    0 < times_left a set -> matR (mc_mat m) s s' = moves_seen a b set / times_left a set.

(** MDP traces alternate labels and actions: moves from [a] to [b] under [x]. *)
Definition under (x : string) (tr : list string) : list R := map (fun y => if String.eqb y x then 1 else 0) (odds tr).
Definition mdp_moves_seen (a x b : string) (set : list (list string * Z)) : R := total (fun tr => seen a b (evens tr) (under x tr)) set.
Definition mdp_times_left (a x : string) (set : list (list string * Z)) : R := total (fun tr => left a (evens tr) (under x tr)) set.

(** Timed traces: moves from [a] to [b], and time spent in [a] before leaving it. *)
Definition ct_moves_seen (a b : string) (set : list ((list string * list R) * Z)) : R := total (fun tr => seen a b (fst tr) (map (fun _ => 1) (snd tr))) set.
Definition ct_time_seen (a : string) (set : list ((list string * list R) * Z)) : R := total (fun tr => left a (fst tr) (snd tr)) set.

(** Frequencies of an MDP; rates of a CTMC: moves per unit of time. *)
Definition mdp_frequencies (set : list (list string * Z)) (m : mdp R) : Prop :=
  forall s j s', (s < mdp_n m)%nat -> (j < length (mdp_act m))%nat -> (s' < mdp_n m)%nat ->
    let a := nth s (mdp_lab m) EmptyString in
    let x := nth j (mdp_act m) EmptyString in
    let b := nth s' (mdp_lab m) EmptyString in
    0 < mdp_times_left a x set -> nth s' (nth j (nth s (mdp_mat m) []) []) 0 = mdp_moves_seen a x b set / mdp_times_left a x set.
Definition ct_frequencies (set : list ((list string * list R) * Z)) (m : ctmc R) : Prop :=
  forall s s', (s < ct_n m)%nat -> (s' < ct_n m)%nat ->
    let a := nth s (ct_lab m) EmptyString in
    let b := nth s' (ct_lab m) EmptyString in
    0 < ct_time_seen a set -> matR (ct_mat m) s s' = ct_moves_seen a b set / ct_time_seen a set.
