(** BW.fit without an initial model: the first hypothesis is a random model with
    the given number of states. *)
From Coq Require Import String ZArith Bool List.
From Verif Require Import Num Py MTools MSet MModels MCtor MLik MBW MBWObj MRandom MPrep.
Import ListNotations.

Section Init.
  Context {K : Type} `{NK : Num K} `{TK : Trans K} (eqe : pv K -> pv K -> bool).
  Notation trace := (list (pv K)).

  (** The random values used: arrays of randint (MRandom.v) for MCs, CTMCs and
      GoHMMs, for MDPs, indexes of random.choices, waiting times, parameters of
      the distributions. *)
  Record drawn := mkDrawn {
    dr_row : nat -> list Z; dr_act : nat -> nat -> list Z; dr_extra : nat -> nat;
    dr_wait : nat -> Z; dr_out : nat -> nat -> K * K }.

  (** Labels and actions are strings.  Other values would be kept as labels;
      this is not modelled (TypeError here). *)
  Definition strings (l : trace) : res (list string) :=
    mmap (fun v => match v with VStr s => Ok s | _ => Err TypeError end) l.

  (** [len(x)] *)
  Definition pylen (v : pv K) : res nat :=
    match v with VStr s => Ok (String.length s) | VVec l => Ok (length l) | VFlt _ | VInt _ => Err TypeError end.

  Inductive hypothesis := HNone | HMC (m : mc K) | HMDP (m : mdp K) | HGoHMM (m : gohmm K) | HCTMC (m : ctmc K).

  (** jajapy/base/BW.py:1464-1490 [_createInitialModel].  [self.alphabet] is set
      by [_getTrainingSet] except for sets of vectors.  [name]: the name given by
      the generator.  A [self_loop] which is None counts as False. *)
  Definition createInitialModel (n : nat) (ri : bool) (lo hi : option Z) (self_loop : bool) (nd : option nat)
      (name : string) (dr : drawn) (p : prepared K) : res hypothesis :=
    let alphabet := match pr_alphabet p with Some al => strings al | None => Err AttributeError end in
    match ty (pr_set p) with
    | Some 0%Z =>
      do al <- alphabet;
      do m <- MC_random n al ri (dr_row dr) (dr_extra dr) name; Ok (HMC m)
    | Some 1%Z =>
      do r <- actions_observations eqe (seqs (pr_set p));
      do act <- strings (fst r);
      do al <- alphabet;
      do m <- MDP_random n al act [] ri false (dr_act dr) (fun _ _ _ => O) (dr_extra dr) name; Ok (HMDP m)
    | Some 3%Z =>
      do d <- match nd with
              | Some d => Ok d
              | None => do s0 <- at_list (seqs (pr_set p)) 0; do v <- at_list s0 0; pylen v
              end;
      do m <- GoHMM_random n d ri (dr_row dr) (dr_out dr) name; Ok (HGoHMM m)
    | Some 4%Z =>
      match lo, hi with
      | Some lo, Some hi =>
        do al <- alphabet;
        do m <- CTMC_random n al lo hi self_loop ri (dr_row dr) (dr_wait dr) (dr_extra dr) name; Ok (HCTMC m)
      | _, _ => Err RuntimeError
      end
    | _ => Ok HNone
    end.

  (** jajapy/base/BW.py:680-703 [_splitTime] for a trace of labels and dwell
      times.  (Other sequences are not modelled: TypeError here.) *)
  Fixpoint splitTime (l : trace) : res (list string * list K) :=
    match l with
    | [] => Ok ([], [])
    | [VStr s] => Ok ([s], [])
    | VStr s :: VFlt x :: r => do q <- splitTime r; Ok (s :: fst q, x :: snd q)
    | _ => Err TypeError
    end.
  Definition vector (v : pv K) : res (list K) := match v with VVec l => Ok l | _ => Err TypeError end.

  (** base/BW.py:182-262: what [_bw] is called with.  With no hypothesis
      [self.h.nb_states] (282) raises AttributeError. *)
  Definition job_of (h : hypothesis) (s : tset trace) : res (@job K) :=
    match h with
    | HNone => Err AttributeError
    | HMC m => do ts <- mmap strings (seqs s); Ok (JobMC (combine ts (times s)) m)
    | HMDP m => do ts <- mmap strings (seqs s); Ok (JobMDP (combine ts (times s)) m)
    | HGoHMM m => do ts <- mmap (mmap vector) (seqs s); Ok (JobGoHMM (length (nth 0 (go_out m) [])) (combine ts (times s)) m)
    | HCTMC m => do ts <- mmap splitTime (seqs s);
                 Ok (JobTimed (repeat (repeat false (ct_n m)) (ct_n m)) (combine ts (times s)) m)
    end.

  (** base/BW.py:26-172, 175-182: [fit] of a new object with [initial_model] =
      None; the first test is [_getInitialModel] (1416-1423). *)
  Definition fit_random (t : training K) (nb_states : option nat) (ri : bool) (lo hi : option Z) (self_loop : bool) (nd : option nat)
      (name : string) (dr : drawn) (processes : nat) (epsilon : K) (max_it : nat) : res (@model K * nat * option K * bool) :=
    match nb_states with
    | None => Err RuntimeError
    | Some n =>
      do p <- getTrainingSet eqe None t;
      do h <- createInitialModel n ri lo hi self_loop nd name dr p;
      do j <- job_of h (pr_set p);
      fst (fit_on new_object processes epsilon max_it j)
    end.
End Init.
Arguments drawn K : clear implicits.
Arguments hypothesis K : clear implicits.
