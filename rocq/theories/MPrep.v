(** Preparation of the training set by BW.fit, and CTMC.toMC. *)
From Coq Require Import String ZArith Bool Arith List.
From Verif Require Import Num Py MTools MSet MModels MCtor.
Import ListNotations.

(** jajapy/base/Model.py: MC_ID, MDP_ID, HMM_ID, GOHMM_ID, CTMC_ID, PCTMC_ID *)
Definition MC_ID : Z := 0.
Definition MDP_ID : Z := 1.
Definition HMM_ID : Z := 2.
Definition GOHMM_ID : Z := 3.
Definition CTMC_ID : Z := 4.
Definition PCTMC_ID : Z := 5.

Section Prep.
  Context {F : Type} (eqe : pv F -> pv F -> bool).
  Notation trace := (list (pv F)).

  (** The training set given by the user: a Set object, or a list (or array) of
      sequences. *)
  Inductive training : Type := UserSet (s : tset trace) | UserList (l : list trace).

  (** jajapy/base/BW.py:1439-1450: a.intersection(l) is a set and {} is a dict:
      they always differ, so the loop stops at the first sequence with
      mdp = False. *)
  Definition mdp_guess (ss : list trace) : bool := match ss with [] => true | _ => false end.

  (** The Set object used for learning. [Set(list)] copies the sequences. *)
  Definition asSet (t : training) : res (tset trace) :=
    match t with
    | UserSet s => Ok s
    | UserList l =>
      do s <- newSet (lex_eqb eqe) l None None;
      if optZ_eqb (ty s) (Some 0%Z) && mdp_guess (seqs s) then Ok (mkset (seqs s) (times s) (Some MDP_ID)) else Ok s
    end.

  (** alphabet.remove('init'): the first occurrence *)
  Fixpoint remove_first (x : pv F) (l : list (pv F)) : list (pv F) :=
    match l with [] => [] | y :: r => if eqe x y then r else y :: remove_first x r end.

  (** jajapy/base/BW.py:1434-1462.  The result: the set used for learning, the
      alphabet when it is computed, and the object of the user after the call.
      The sequences of a Set are changed in place; sequences sharing the same
      list object are not modelled. *)
  Record prepared := mkPrep { pr_set : tset trace; pr_alphabet : option trace; pr_user : training }.
  Definition getTrainingSet (model : option Z) (t : training) : res prepared :=
    do s <- asSet t;
    if negb (optZ_eqb (ty s) (Some 3%Z)) && negb (optZ_eqb model (Some HMM_ID)) then
      do al <- (if optZ_eqb (ty s) (Some 1%Z) then do r <- actions_observations eqe (seqs s); Ok (snd r) else getAlphabet eqe s);
      let ini := VStr "init" in
      let '(s', al') :=
        if negb (memb eqe ini al) then (mkset (map (cons ini) (seqs s)) (times s) (ty s), al)
        else (s, remove_first ini al) in
      Ok (mkPrep s' (Some al') match t with UserSet _ => UserSet s' | UserList l => UserList l end)
    else Ok (mkPrep s None t).
End Prep.
Arguments training F : clear implicits.
Arguments prepared F : clear implicits.

(** jajapy/base/BW.py:188-197: the compatibility of the training set and the
    initial model, when there is one.  The message is built by indexing two
    lists with the types. *)
Definition checkCompatible (t m : Z) : res unit :=
  if (negb (t =? m) && (negb (t =? 0) && negb (m =? 2)) && (negb (t =? 0) && negb (m =? 4)) &&
      (negb (t =? 0) && negb (m =? 5)) && (negb (t =? 4) && negb (m =? 5)))%Z
  then
    do _ <- pyget ["labels"; "action-label pairs"; "vector of continuous observations"; "dwell time-label pairs"]%string t;
    do _ <- pyget ["MC"; "MDP"; "HMM"; "GoHMM"; "CTMC"; "PCTMC"]%string m;
    Err RuntimeError
  else Ok tt.

Section ToMC.
  Context {K : Type} `{NK : Num K}.
  (** jajapy/ctmc/CTMC.py:263-281.  [new_matrix] is the array of the CTMC itself:
      the second component is the CTMC after the call.  Each row is divided by
      its sum, computed before the division.  Rows of sum 0 become nan in numpy;
      this is not modelled and the theorems exclude it. *)
  Definition toMC (m : ctmc K) (name : string) : res (mc K) * ctmc K :=
    let new := map (fun row => map (fun x => ndiv x (nsum row)) row) (ct_mat m) in
    (MC_new new (ct_lab m) name, mkCTMC new (ct_lab m) (ct_ini m) (ct_name m)).
End ToMC.
