(** Specification of model well-formedness and of trace probabilities, class by
    class. *)
From Coq Require Import String ZArith Bool Reals List.
From Verif Require Import Num SNum SPath MModels.
Import ListNotations.
Local Open Scope R_scope.

(** A square matrix of size n. *)
Definition square (n : nat) (m : list (list R)) : Prop :=
  length m = n /\ forall r, In r m -> length r = n.

Definition nonneg_mat (m : list (list R)) : Prop := forall r, In r m -> nonneg r.

(** Each row sums to 1; to 0 or 1; to at most 1. *)
Definition stochastic (m : list (list R)) : Prop := nonneg_mat m /\ forall r, In r m -> rsum r = 1.
Definition stochastic01 (m : list (list R)) : Prop := nonneg_mat m /\ forall r, In r m -> rsum r = 0 \/ rsum r = 1.
Definition substochastic (m : list (list R)) : Prop := nonneg_mat m /\ forall r, In r m -> rsum r <= 1.

(** Shapes of the attributes. *)
Definition wf_mc (m : mc R) : Prop :=
  square (mc_n m) (mc_mat m) /\ length (mc_lab m) = mc_n m /\ length (mc_ini m) = mc_n m /\ nonneg (mc_ini m).

(** Observation factor of a labelled state. *)
Definition is_label (labels : list string) (o : string) (s : nat) : R :=
  if String.eqb (nth s labels EmptyString) o then 1 else 0.

(** Probability that the chain emits the labels [tr]: start, observe, move,
    observe, ... , observe. *)
Definition mc_trace_prob (m : mc R) (tr : list string) : R :=
  trace_prob (mc_n m) (vecR (mc_ini m)) (repeat (matR (mc_mat m)) (length tr - 1))
             (map (is_label (mc_lab m)) tr).

(** Same, followed by one more move. *)
Definition mc_trace_prob_move (m : mc R) (tr : list string) : R :=
  trace_prob (mc_n m) (vecR (mc_ini m)) (repeat (matR (mc_mat m)) (length tr))
             (map (is_label (mc_lab m)) tr ++ [fun _ => 1]).

(** Log-likelihood of a weighted set of traces: impossible traces do not count. *)
Definition set_ll {T} (prob : T -> R) (set : list (T * Z)) : R :=
  sumL set (fun st => if Rlt_dec 0 (prob (fst st)) then IZR (snd st) * ln (prob (fst st)) else 0).

Definition pos_times {T} (set : list (T * Z)) : Prop := forall st, In st set -> (0 < snd st)%Z.
