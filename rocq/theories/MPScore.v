(** logLikelihood of parametric CTMCs on untimed traces, pctmc/PCTMC.py:356-357
    and base/Model.py:216-381.  The rates are finite numbers, the probabilities
    are computed in the arithmetic of MExt.v because [tau] may return inf. *)
From Coq Require Import String ZArith Bool Reals List.
From Verif Require Import Num Py MSet MModels MLik MPctmc MExt.
Import ListNotations.

(** jajapy/base/Model.py:372: [array([self.tau(ss,s,o) for ss in ...])].  A None in
    the array makes the product with it raise TypeError. *)
Definition pc_taus (m : pctmc R) (s : nat) (o : string) : res (list xr) :=
  mmap (fun ss => do t <- pc_tau m ss s o;
                  match t with Fin x => Ok (XF x) | Inf => Ok XP | PyNone => Err TypeError end) (seq 0 (pc_n m)).
(** 370-374: one step of the forward loop. *)
Definition pc_fstep (m : pctmc R) (prev : list xr) (o : string) : res (list xr) :=
  mmap (fun s => do p <- pc_taus m s o; Ok (@ndot xr XNum prev p)) (seq 0 (pc_n m)).
(** 351-381 [_computeAlphas].  375 reads [self.b]: neither PCTMC nor
    Parametric_Model nor Model has a method b (unlike Base_MC, HMM and GoHMM), which
    raises AttributeError.  [self.b] is read once per state, before [sequence[-1]]. *)
Definition pc_computeAlphas (m : pctmc R) (sequence : list string) : res (option xr) :=
  do prev <- mfold (pc_fstep m) (removelast sequence) (xvec (pc_ini m));
  match prev with [] => Ok None | _ => Err AttributeError end.
(** 353-357 of pctmc/PCTMC.py, then base/Model.py:339-349 [_logLikelihood_multiproc]. *)
Definition pc_logLikelihood (m : pctmc R) (s : tset (list string)) : res xr :=
  if negb (inst_model m) then Err ValueError
  else
    do temp <- mmap (fun st => pc_computeAlphas m (fst st)) (combine (seqs s) (times s));
    let sm := @nsum xr XNum (@not_false xr XNum temp) in
    if xeqb sm (XF 0) then Ok (XF 0) else Ok (xdiv sm (XF (IZR (zsum (times s))))).

(** base/Model.py:305-337 [_logLikelihood_oneproc] (Windows and macOS), which does
    not use [b].  When every state has its exit rate, [tau] never returns None. *)
Definition pc_tau_x (m : pctmc R) (ss s : nat) (o : string) : xr :=
  match pc_tau m ss s o with Ok (Fin x) => XF x | Ok Inf => XP | _ => XN end.
Definition all_rates (m : pctmc R) : bool := forallb (fun s => match inst_state m s None with Ok b => b | Err _ => false end) (seq 0 (pc_n m)).
Definition pc_logLikelihood_1 (m : pctmc R) (s : tset (list string)) : res (xr * tset (list string)) :=
  if negb (inst_model m) then Err ValueError
  else if negb (all_rates m) && existsb (fun l => negb (length l =? 0)%nat) (seqs s) then Err TypeError
  else @model_oneproc xr XNum XTrans (pc_n m) (pc_tau_x m) (xvec (pc_ini m)) s.

(** ctmc/CTMC.py:246-247 and base/Model.py:216-233: logLikelihood of a CTMC on
    untimed traces on Windows and macOS. *)
Definition ct_logLikelihood_1 {K} `{Num K} `{Trans K} (m : ctmc K) := model_oneproc (ct_n m) (ct_tau m) (ct_ini m).
