(** Simulation from a state chosen by the caller: the argument [current] of run. *)
From Coq Require Import String ZArith Bool List.
From Verif Require Import Num Py MTools MModels MCtor MRun.
Import ListNotations.
Local Open Scope num_scope.

Section RunFrom.
  Context {K : Type} `{Num K}.

  (** jajapy/mdp/MDP.py:184-220 [run(number_steps, scheduler, current)].  -1 asks for
      an initial state.  Otherwise current is used as an index of numpy arrays and
      lists with one entry per state: a negative value counts from the end.  When
      it is out of range, the scheduler is asked for a first action (line 208)
      before [getActions] (line 210, or [labelling[current]] on line 219 when no
      step is asked for) raises IndexError. *)
  Definition mdp_run_at {S} (m : mdp K) (sch : scheduler K S) (st : S) (number_steps current : Z) (draws : list K)
    : option (res (list string)) :=
    if (current =? -1)%Z then mdp_run m sch st number_steps draws
    else
      let n := Z.of_nat (mdp_n m) in
      let s := if (current <? 0)%Z then (current + n)%Z else current in
      if ((0 <=? s) && (s <? n))%Z then mdp_run_from m sch (Z.to_nat number_steps) (sch_reset sch st) (Z.to_nat s) draws
      else match Z.to_nat number_steps with
           | O => Some (Err IndexError)
           | Datatypes.S _ =>
             match draws with
             | [] => None
             | r :: _ => match sch_get sch (sch_reset sch st) r with
                         | Err e => Some (Err e)
                         | Ok _ => Some (Err IndexError)
                         end
             end
           end.

  (** jajapy/base/Model.py:187-188: with [timed=True], generateSet calls
      [self.run(curr_size, timed)], so that run of MC.py:122-150 and Model.py:109-136
      receives current = True.  [True == -1] is false.  Indexing a numpy array by
      True adds an axis: [self.matrix[True]] is the whole matrix, which
      resolveRandom flattens ([cumsum]); indexing a list by True reads entry 1. *)
  Definition mc_run_true (m : mc K) (number_steps : Z) (draws : nat -> K) : res (list string) :=
    match Z.to_nat number_steps with
    | O => do l <- pyget (mc_lab m) 1; Ok [l]
    | S k =>
      do c <- resolveRandom (concat (mc_mat m)) (draws O);
      do l <- pyget (mc_lab m) 1;
      do rest <- mc_run_from m k (Z.of_nat c) draws 1;
      Ok (l :: rest)
    end.
  (** Same for an HMM (base/Base_HMM.py:95-140: [matrix] and [output] are numpy
      arrays). *)
  Definition hmm_run_true (m : hmm K) (number_steps : Z) (draws : nat -> K) : res (list string) :=
    match Z.to_nat number_steps with
    | O => Ok []
    | S k =>
      do c <- resolveRandom (concat (hmm_mat m)) (draws O);
      do o <- resolveRandom (concat (hmm_out m)) (draws 1%nat);
      do l <- pyget (hmm_alph m) (Z.of_nat o);
      do rest <- hmm_run_from m k (Z.of_nat c) draws 2;
      Ok (l :: rest)
    end.
End RunFrom.
