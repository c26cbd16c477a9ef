(** Labels, alphabet and traces of parametric CTMCs; GoHMM.mu. *)
From Coq Require Import String ZArith Bool List.
From Verif Require Import Num Py MTools MSet MModels MCtor MRun MPctmc.
Import ListNotations.
Local Open Scope num_scope.

(** An argument given as state id: an integer (of Python or numpy), a float (only
    its part towards zero matters), a text which is an integer, another text, or
    anything that [int] refuses. *)
Inductive stateid := SidInt (z : Z) | SidFloat (z : Z) | SidNumeral (z : Z) | SidText | SidOther.

Section PAcc.
  Context {K : Type} `{Num K}.

  (** jajapy/base/Parametric_Model.py:451-459 [_checkStateIndex]: only TypeError is
      caught, [int('x')] raises ValueError. *)
  Definition pc_checkStateIndex (m : pctmc K) (s : stateid) : res unit :=
    match s with
    | SidInt z | SidFloat z | SidNumeral z => if (z <? 0)%Z then Err IndexError else if (Z.of_nat (pc_n m) <=? z)%Z then Err IndexError else Ok tt
    | SidText => Err ValueError
    | SidOther => Err TypeError
    end.
  (** 315-335 [getLabel]: the id is then used as it was given. *)
  Definition pc_getLabel (m : pctmc K) (s : stateid) : res string :=
    do _ <- pc_checkStateIndex m s;
    match s with SidInt z => pyget (pc_lab m) z | _ => Err TypeError end.
  (** 50, 337-351 [getAlphabet]: [list(set(labelling))], here in the order of first
      occurrence. *)
  Definition pc_getAlphabet (m : pctmc K) : list string := dedup String.eqb (pc_lab m).

  (** jajapy/pctmc/PCTMC.py:294-324 [run] without times, the trace that
      generateSet collects. *)
  Definition pc_run_untimed (m : pctmc K) (number_steps : Z) (r0 : K) (samples : nat -> nat -> K) : res (list string) :=
    do r <- pc_run m number_steps r0 samples; Ok (map fst (fst r) ++ [snd r]).
  (** with times: labels and times alternate *)
  Definition pc_run_timed (m : pctmc K) (number_steps : Z) (r0 : K) (samples : nat -> nat -> K) : res (list (string + option K)) :=
    do r <- pc_run m number_steps r0 samples; Ok (flat_map (fun ot => [inl (fst ot); inr (snd ot)]) (fst r) ++ [inl (snd r)]).

  (** jajapy/gohmm/GoHMM.py:50-64 [mu]: no check of the id. *)
  Definition go_mus (m : gohmm K) (s : Z) : res (list K) := do o <- pyget (go_out m) s; Ok (map fst o).
End PAcc.
