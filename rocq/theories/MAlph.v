(** What a state can generate: getAlphabet(state), next_obs, getActions(state). *)
From Coq Require Import String ZArith Bool List.
From Verif Require Import Num Py MTools MModels MCtor.
Import ListNotations.
Local Open Scope num_scope.

Section Alph.
  Context {K : Type} `{Num K}.

  (** jajapy/hmm/HMM.py:95-114 [getAlphabet]: -1 (the default) stands for the
      whole model.  A value which is not a number is different from -1. *)
  Definition HMM_getAlphabet (m : hmm K) (state : pyid) : res (list string) :=
    let one_state :=
      do s <- checkStateIndex (hmm_n m) state;
      do row <- at_list (hmm_out m) s;
      mmap (at_list (hmm_alph m)) (filter (fun i => n0 <? vget row i) (seq 0 (length row))) in
    match state with
    | IdInt z | IdNp z => if (z =? -1)%Z then Ok (hmm_alph m) else one_state
    | IdOther => one_state
    end.
  (** jajapy/hmm/HMM.py:142-152 [next_obs] (base/Base_HMM.py:95-105 is the same). *)
  Definition HMM_next_obs (m : hmm K) (state : Z) (r : K) : res string :=
    do out <- pyget (hmm_out m) state;
    do c <- resolveRandom out r;
    at_list (hmm_alph m) c.

  (** jajapy/mdp/MDP.py:47-73 [getActions]: no check of the id, so it is used as
      a Python index. *)
  Definition MDP_getActions (m : mdp K) (state : pyid) : res (list string) :=
    match state with
    | IdInt z | IdNp z =>
      if (z =? -1)%Z then Ok (mdp_act m)
      else do s <- pyget (seq 0 (mdp_n m)) z; Ok (getActions m s)
    | IdOther => Err IndexError
    end.
End Alph.
