(** The methods bound to a BW object by the calls made on it:
    jajapy/base/BW.py:16-23, 196-262, 1390-1401. *)
From Coq Require Import String ZArith Bool List.
From Verif Require Import Num Py MSet MModels MLik MBW MPctmc MPLearn.
Import ListNotations.
Local Open Scope num_scope.

(** The calls that bind methods.  (A call refused before, by
    base/BW.py:183-194 or 1365-1370, binds nothing.) *)
Inductive call := CallMC | CallMDP | CallHMM | CallGoHMM | CallCTMC (timed : bool) | CallPCTMC (timed : bool) | CallParameters (timed : bool).

(** [_h_tau]: the method of the class (1651-1668), or one stored in the object. *)
Inductive tau_method := TauClass | TauMDP | TauPCTMC.
(** Attributes [_computeAlphas] and [_computeBetas] (always set together),
    [_h_tau], and whether [_computeTaus], [_h_e], [_h_l] are those of parametric
    CTMCs (always set together). *)
Record methods := mkMethods { me_alphas : akind; me_tau : tau_method; me_pctmc : bool }.
(** base/BW.py:16-23: a new object has the methods of its class. *)
Definition new_object : methods := mkMethods KGeneric TauClass false.
(** base/BW.py:196-262 [_preparation] and 1390-1401 [fit_parameters]: nothing is
    ever set back to the method of the class. *)
Definition bind_methods (c : call) (me : methods) : methods :=
  match c with
  | CallMC | CallHMM | CallGoHMM | CallCTMC false => me
  | CallMDP => mkMethods KMdp TauMDP (me_pctmc me)
  | CallCTMC true => mkMethods KTimed (me_tau me) (me_pctmc me)
  | CallPCTMC timed => mkMethods (if timed then KTimedMatrix else KMatrix) TauPCTMC true
  | CallParameters timed => mkMethods (if timed then KTimed else me_alphas me) TauPCTMC true
  end.
(** The object after the given calls, the oldest first. *)
Definition after (history : list call) : methods := fold_left (fun me c => bind_methods c me) history new_object.

Section Obj.
  Context {K : Type} `{Num K} `{Trans K}.

  (** base/BW.py:294: [_computeTaus] of parametric CTMCs reads
      [self.h.transitionValue], which the other models do not have. *)
  Definition computeTaus (me : methods) (n : nat) : res unit :=
    if me_pctmc me && (0 <? n)%nat then Err AttributeError else Ok tt.

  (** base/BW.py:1641-1649 with workers that can raise. *)
  Definition run_all {S T} (processes : nat) (work : S -> Z -> res (option T)) (set : list (S * Z)) : res (list (option T)) :=
    do results <- mmap (fun st => work (fst st) (snd st)) set;
    Ok (if (1 <? processes)%nat then filter (fun r => match r with Some _ => true | None => false end) results else results).

  (** base/BW.py:330-331, 758-759: one argument.  [_computeAlphas_MDP],
      [_computeAlphas_timed] and [_computeAlphas_timed_matrix] need two.  The
      other combinations with the methods of parametric CTMCs are not reached
      (computeTaus raises). *)
  Definition one_argument (me : methods) : res unit :=
    match me_alphas me, me_tau me with KGeneric, TauClass => Ok tt | _, _ => Err TypeError end.

  (** base/BW.py:294-296 for the different kinds of models. *)
  Definition round_MC_on (me : methods) (processes : nat) (set : list (list string * Z)) (m : mc K) : res (mc K * K) :=
    do _ <- computeTaus me (mc_n m);
    do temp <- run_all processes (fun sequence t => do _ <- one_argument me; Ok (processWork_MC m sequence t)) set;
    update_MC m temp.
  Definition round_HMM_on (me : methods) (processes : nat) (set : list (list string * Z)) (m : hmm K) : res (hmm K * K) :=
    do _ <- computeTaus me (hmm_n m);
    do temp <- run_all processes (fun sequence t => do _ <- one_argument me; Ok (processWork_HMM m sequence t)) set;
    update_HMM m temp.
  (** base/BW.py:811-814: the second argument is a type.  [_computeAlphas_MDP]
      subscripts it (TypeError); [_computeAlphas_timed] first reads [self.h.l],
      which a GoHMM does not have (AttributeError).  (For a sequence of one
      observation both raise AttributeError, on [self.h.labelling].) *)
  Definition round_GoHMM_on (me : methods) (processes d : nat) (set : list (list (list K) * Z)) (m : gohmm K) : res (gohmm K * K) :=
    do _ <- computeTaus me (go_n m);
    do temp <- run_all processes (fun sequence t =>
                 match me_alphas me, me_tau me with
                 | KGeneric, TauClass => Ok (processWork_GoHMM m d sequence t)
                 | KMdp, _ => Err (if (1 <? length sequence)%nat then TypeError else AttributeError)
                 | _, _ => Err AttributeError
                 end) set;
    update_GoHMM m d temp.
  (** base/BW.py:446-447, 459: [_preparation] has just set all the methods used. *)
  Definition round_MDP_on (me : methods) (processes : nat) (set : list (list string * Z)) (m : mdp K) : res (mdp K * K) :=
    do _ <- computeTaus me (mdp_n m);
    do temp <- run_all processes (fun sequence t =>
                 match me_alphas me, me_tau me with KMdp, TauMDP => Ok (processWork_MDP m sequence t) | _, _ => Err TypeError end) set;
    update_MDP m temp.
  (** base/BW.py:697-712: [_splitTime] reads [sequence[1]]: IndexError for a trace
      of one observation.  Untimed traces have None as times: the methods of MDPs
      and of timed CTMCs subscript it. *)
  Definition round_CTMC_untimed_on (me : methods) (processes : nat) (fixed : list (list bool)) (set : list (list string * Z)) (m : ctmc K) : res (ctmc K * K) :=
    do _ <- computeTaus me (ct_n m);
    do temp <- run_all processes (fun sequence t =>
                 if (length sequence <? 2)%nat then Err IndexError
                 else do _ <- one_argument me; Ok (processWork_CTMC_untimed m fixed sequence t)) set;
    update_CTMC m fixed temp.
  (** For timed traces [_preparation] has just set the two functions; [_h_e] and
      [_h_l] are those of the class unless a parametric CTMC was learned.  A trace
      with one observation and no dwell time raises IndexError. *)
  Definition round_CTMC_timed_on (me : methods) (processes : nat) (fixed : list (list bool)) (set : list (timed * Z)) (m : ctmc K) : res (ctmc K * K) :=
    do _ <- computeTaus me (ct_n m);
    do temp <- run_all processes (fun tr t =>
                 if (length (fst tr) + length (snd tr) <? 2)%nat then Err IndexError
                 else match me_alphas me with KTimed => Ok (processWork_CTMC_timed m fixed tr t) | _ => Err TypeError end) set;
    update_CTMC m fixed temp.

  (** What [fit] can be asked to learn (parametric CTMCs are in MPLearn.v). *)
  Inductive job :=
  | JobMC (set : list (list string * Z)) (m : mc K)
  | JobHMM (set : list (list string * Z)) (m : hmm K)
  | JobGoHMM (d : nat) (set : list (list (list K) * Z)) (m : gohmm K)
  | JobMDP (set : list (list string * Z)) (m : mdp K)
  | JobUntimed (fixed : list (list bool)) (set : list (list string * Z)) (m : ctmc K)
  | JobTimed (fixed : list (list bool)) (set : list (@timed K * Z)) (m : ctmc K).
  Inductive model := TheMC (m : mc K) | TheHMM (m : hmm K) | TheGoHMM (m : gohmm K) | TheMDP (m : mdp K) | TheCTMC (m : ctmc K).
  Definition call_of (j : job) : call :=
    match j with
    | JobMC _ _ => CallMC | JobHMM _ _ => CallHMM | JobGoHMM _ _ _ => CallGoHMM | JobMDP _ _ => CallMDP
    | JobUntimed _ _ _ => CallCTMC false | JobTimed _ _ _ => CallCTMC true
    end.
  Definition tag {M} (f : M -> model) (r : res (M * nat * option K * bool)) : res (model * nat * option K * bool) :=
    do x <- r; match x with (m, c, ll, stop) => Ok (f m, c, ll, stop) end.

  (** base/BW.py:26-172, 278-325: [fit] on an object, after [_getInitialModel] and
      [_getTrainingSet]; the model, the number of rounds, the last log-likelihood
      and whether the loop stopped by itself; and the object afterwards. *)
  Definition fit_on (me : methods) (processes : nat) (epsilon : K) (max_it : nat) (j : job) : res (model * nat * option K * bool) * methods :=
    let me := bind_methods (call_of j) me in
    (match j with
     | JobMC set m => tag TheMC (bw_loop (round_MC_on me processes set) epsilon max_it None 0 m)
     | JobHMM set m => tag TheHMM (bw_loop (round_HMM_on me processes set) epsilon max_it None 0 m)
     | JobGoHMM d set m => tag TheGoHMM (bw_loop (round_GoHMM_on me processes d set) epsilon max_it None 0 m)
     | JobMDP set m => tag TheMDP (bw_loop (round_MDP_on me processes set) epsilon max_it None 0 m)
     | JobUntimed fixed set m => tag TheCTMC (bw_loop (round_CTMC_untimed_on me processes fixed set) epsilon max_it None 0 m)
     | JobTimed fixed set m => tag TheCTMC (bw_loop (round_CTMC_timed_on me processes fixed set) epsilon max_it None 0 m)
     end, me).
  (** The object seen by fit_parameters (MPLearn.v) after a call of [fit]. *)
  Definition seen_by_fit_parameters (me : methods) (processes : nat) : bwobj := mkBW true (Some processes) (me_alphas me).
End Obj.
