(** Specification vocabulary for trace probabilities: explicit sums over state
    paths, with no forward or backward recursion. *)
From Coq Require Import Reals List.
From Verif Require Import SNum.
Import ListNotations.
Local Open Scope R_scope.

(** All sequences of [T] states among 0..n-1. *)
Fixpoint paths (n T : nat) : list (list nat) :=
  match T with
  | O => [[]]
  | S T' => flat_map (fun s => map (cons s) (paths n T')) (seq 0 n)
  end.

(** Weight of the path [x]: product of the observation factors [Bs] (one per
    position) and of the transition factors [As] (one per move). *)
Fixpoint path_weight (As : list (nat -> nat -> R)) (Bs : list (nat -> R)) (x : list nat) : R :=
  match Bs, x with
  | b :: Bs', s :: x' =>
    b s * match Bs', As, x' with
          | [], [], [] => 1
          | _ :: _, A :: As', s' :: _ => A s s' * path_weight As' Bs' x'
          | _, _, _ => 0
          end
  | _, _ => 0
  end.

(** Probability (or density): sum over all paths, weighted by the initial
    distribution. *)
Definition trace_prob (n : nat) (pi : nat -> R) (As : list (nat -> nat -> R)) (Bs : list (nat -> R)) : R :=
  sumL (paths n (length Bs)) (fun x => pi (hd O x) * path_weight As Bs x).

(** Sum of rewards [g] collected along the moves of a path: g_k(x_k, x_k+1). *)
Fixpoint path_reward (g : list (nat -> nat -> R)) (x : list nat) : R :=
  match g, x with
  | g1 :: g', s :: x' => match x' with s' :: _ => g1 s s' + path_reward g' x' | [] => 0 end
  | _, _ => 0
  end.

(** Unnormalised expected reward: sum over all paths of weight times reward.
    Divided by [trace_prob] it is the conditional expectation of the reward
    given the trace. *)
Definition expected (n : nat) (pi : nat -> R) (As : list (nat -> nat -> R)) (Bs : list (nat -> R))
    (g : list (nat -> nat -> R)) : R :=
  sumL (paths n (length Bs)) (fun x => pi (hd O x) * path_weight As Bs x * path_reward g x).

(** Reward [c] for each move from s to s'. *)
Definition on_move (s s' : nat) (c : R) (i j : nat) : R := if Nat.eqb i s then if Nat.eqb j s' then c else 0 else 0.
(** Reward [c] for each move leaving s. *)
Definition on_leave (s : nat) (c : R) (i j : nat) : R := if Nat.eqb i s then c else 0.

(** Expected reward, given the trace, summed over the possible traces of a
    weighted set. *)
Definition set_expected {T} (prob : T -> R) (E : T -> R) (set : list (T * BinNums.Z)) : R :=
  sumL set (fun st => if Rlt_dec 0 (prob (fst st)) then IZR (snd st) * (E (fst st) / prob (fst st)) else 0).
