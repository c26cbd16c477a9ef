(** Likelihood computations of the model classes:
    jajapy/base/Model.py:240-381, mdp/MDP.py:321-444, ctmc/CTMC.py:214-261. *)
From Coq Require Import String ZArith Bool List.
From Verif Require Import Num Py MSet MModels.
Import ListNotations.
Local Open Scope num_scope.

Section Lik.
  Context {K : Type} `{Num K} `{Trans K}.

  (** One step of the forward loop, the body common to base/Model.py:281-283,
      370-374, mdp/MDP.py:401-405, 435-439, ctmc/CTMC.py:219-224, base/BW.py:1558-1562:
      [for s in range(n): p = array([w(ss,s) for ss in range(n)]); new[s] = dot(prev,p)]. *)
  Definition fstep (n : nat) (prev : list K) (w : nat -> nat -> K) : list K :=
    vbuild n (fun s => ndot prev (vbuild n (fun ss => w ss s))).

  (** jajapy/base/Model.py:367-377: the forward values after all observations
      but the last one, times [b(s,last)], summed.  A sequence without
      observations makes [sequence[-1]] raise IndexError.  For one observation the
      product is written in the initial vector itself, of the copy of the model
      that the worker of the pool received.  [tau] and [b] are
      the methods of the model's class. *)
  Definition model_prob {O} (n : nat) (tau : nat -> nat -> O -> K) (b : nat -> O -> K)
      (ini : list K) (sequence : list O) : res K :=
    match rev sequence with
    | [] => Err IndexError
    | last :: butlast =>
      let prev := fold_left (fun prev o => fstep n prev (fun ss s => tau ss s o)) (rev butlast) ini in
      Ok (nsum (zipwith nmul prev (vbuild n (fun s => b s last))))
    end.

  (** jajapy/base/Model.py:376-381: [log(p)*times], or False ([None]) when log
      raises ValueError (p <= 0). *)
  Definition log_times (p : K) (times : Z) : option K :=
    if p <=? n0 then None else Some (nln p * nofZ times).

  (** jajapy/base/Model.py:351-381 [_computeAlphas] *)
  Definition model_computeAlphas {O} n tau b ini (sequence : list O) (times : Z) : res (option K) :=
    do p <- model_prob n tau b ini sequence; Ok (log_times p times).

  (** [[r for r in results if r != False]]: drops False, and also the number 0.0,
      since 0.0 == False in Python. *)
  Definition not_false (l : list (option K)) : list K :=
    flat_map (fun r => match r with None => [] | Some x => if x =? n0 then [] else [x] end) l.

  (** jajapy/base/Model.py:339-349 [_logLikelihood_multiproc].  The pool is
      modelled in MPool.v; its results are collected in the order of the tasks. *)
  Definition model_multiproc {O} n tau b ini (s : tset (list O)) : res K :=
    do temp <- mmap (fun st => model_computeAlphas n tau b ini (fst st) (snd st))
                    (combine (seqs s) (times s));
    let sm := nsum (not_false temp) in
    if sm =? n0 then Ok n0
    else Ok (sm / nofZ (zsum (times s))).

  (** jajapy/base/Model.py:286-303 [_initAlphaMatrix] *)
  Definition initAlphaMatrix (n : nat) (ini : list K) (len_seq : nat) : list (list K) :=
    ini :: repeat (vzeros n) len_seq.

  (** jajapy/base/Model.py:280-283, the loop from [k] on; [ws] holds the
      transition weights of the remaining positions. *)
  Fixpoint alpha_loop (n : nat) (ws : list (nat -> nat -> K)) (k : nat) (alpha : list (list K)) : list (list K) :=
    match ws with
    | [] => alpha
    | w :: ws' => alpha_loop n ws' (S k) (upd alpha (S k) (fstep n (nth k alpha []) w))
    end.

  (** jajapy/base/Model.py:240-284 and mdp/MDP.py:360-406 [_updateAlphaMatrix]:
      the matrix is padded with zero rows or truncated to len+1 rows, then
      recomputed from row [common] on. [ws] are the weights of all positions. *)
  Definition updateAlphaMatrix (n : nat) (ws : list (nat -> nat -> K)) (common : nat)
      (alpha : list (list K)) : list (list K) :=
    let want := S (length ws) in
    let alpha1 := if (length alpha <? want)%nat
                  then alpha ++ repeat (vzeros n) (want - length alpha)
                  else firstn want alpha in
    alpha_loop n (skipn common ws) common alpha1.

  (** jajapy/base/Model.py:326-331: length of the common prefix. *)
  Fixpoint common_prefix (l m : list string) : nat :=
    match l, m with
    | x :: l', y :: m' => if String.eqb x y then S (common_prefix l' m') else O
    | _, _ => O
    end.

  (** jajapy/base/Model.py:323-335: the loop over the sorted sequences, [prev]
      the previous sequence (None for the first one). *)
  Fixpoint oneproc_loop (n : nat) (tau : nat -> nat -> string -> K)
      (l : list (list string * Z)) (prev : option (list string)) (alpha : list (list K)) (ll : K) : K :=
    match l with
    | [] => ll
    | (sequence, t) :: l' =>
      let common := match prev with None => O | Some p => common_prefix p sequence end in
      let alpha' := updateAlphaMatrix n (map (fun o ss s => tau ss s o) sequence) common alpha in
      let p := nsum (last alpha' []) in
      let ll' := if n0 <? p then ll + nln p * nofZ t else ll in
      oneproc_loop n tau l' (Some sequence) alpha' ll'
    end.

  (** jajapy/base/Model.py:305-337 [_logLikelihood_oneproc]: also sorts the
      set; the new set is returned. *)
  Definition model_oneproc n tau ini (s : tset (list string)) : res (K * tset (list string)) :=
    let s' := sort trace_eqb trace_leb s in
    match seqs s' with
    | [] => Err IndexError
    | first :: _ =>
      let ll := oneproc_loop n tau (combine (seqs s') (times s')) None
                  (initAlphaMatrix n ini (length first)) n0 in
      Ok (ll / nofZ (zsum (times s')), s')
    end.

  (** The classes: mc/MC.py, hmm/HMM.py, gohmm/GoHMM.py and untimed traces for
      ctmc/CTMC.py:246-247 (none overrides the methods of Model on these traces). *)
  Definition mc_logLikelihood (m : mc K) := model_multiproc (mc_n m) (mc_tau m) (lab_b (mc_lab m)) (mc_ini m).
  Definition mc_logLikelihood_1 (m : mc K) := model_oneproc (mc_n m) (mc_tau m) (mc_ini m).
  Definition hmm_logLikelihood (m : hmm K) := model_multiproc (hmm_n m) (hmm_tau m) (hmm_b m) (hmm_ini m).
  Definition hmm_logLikelihood_1 (m : hmm K) := model_oneproc (hmm_n m) (hmm_tau m) (hmm_ini m).
  Definition go_logLikelihood (m : gohmm K) := model_multiproc (go_n m) (go_tau m) (go_b m) (go_ini m).
  Definition ct_logLikelihood (m : ctmc K) := model_multiproc (ct_n m) (ct_tau m) (lab_b (ct_lab m)) (ct_ini m).

  (** ** MDP *)

  (** [[sequence[i] for i in range(0,len(sequence)-1,2)]] and
      [[sequence[i+1] for i in range(0,len(sequence)-1,2)]], used in
      mdp/MDP.py:340-341, 434-438 and base/BW.py:448-449: the (observation,
      action) pairs. For an odd length the last element is not included. *)
  Fixpoint pairs_of {E} (l : list E) : list (E * E) :=
    match l with
    | o :: a :: l' => (o, a) :: pairs_of l'
    | _ => []
    end.

  Definition mdp_w (m : mdp K) (oa : string * string) : nat -> nat -> K :=
    fun ss s => mdp_tau m ss (snd oa) s (fst oa).

  (** [array(self.labelling) == o] as numbers. *)
  Definition lab_mask (n : nat) (l : list string) (o : string) : list K := vbuild n (fun s => lab_b l s o).

  (** jajapy/mdp/MDP.py:432-444: forward values over the (observation, action)
      pairs, masked by the last label and summed. *)
  Definition mdp_prob (m : mdp K) (sequence : list string) : res K :=
    match rev sequence with
    | [] => Err IndexError
    | last :: _ =>
      let prev := fold_left (fun prev oa => fstep (mdp_n m) prev (mdp_w m oa)) (pairs_of sequence) (mdp_ini m) in
      Ok (nsum (zipwith nmul prev (lab_mask (mdp_n m) (mdp_lab m) last)))
    end.

  (** jajapy/mdp/MDP.py:416-444 [_computeAlphas]: 0.0 for impossible sequences.
      ([log] of a negative sum would raise; sums are never negative.) *)
  Definition mdp_computeAlphas (m : mdp K) (sequence : list string) (times : Z) : res K :=
    do p <- mdp_prob m sequence;
    Ok (if p =? n0 then n0 else nln p * nofZ times).

  (** jajapy/mdp/MDP.py:408-414 [_logLikelihood_multiproc] *)
  Definition mdp_logLikelihood (m : mdp K) (s : tset (list string)) : res K :=
    do temp <- mmap (fun st => mdp_computeAlphas m (fst st) (snd st)) (combine (seqs s) (times s));
    Ok (nsum (not_false (map Some temp)) / nofZ (zsum (times s))).

  (** jajapy/mdp/MDP.py:338-356: the single-process loop. [common] counts
      elements of the alternating sequence and is halved. *)
  Fixpoint mdp_oneproc_loop (m : mdp K) (orig : tset (list string)) (l : list (list string))
      (prev : option (list string)) (alpha : list (list K)) (ll : K) : res K :=
    match l with
    | [] => Ok ll
    | sequence :: l' =>
      match index_of trace_eqb sequence (seqs orig), rev sequence with
      | Some i, lst :: _ =>
        let t := nth i (times orig) 0%Z in
        let common := match prev with None => O | Some p => common_prefix p sequence end in
        let alpha' := updateAlphaMatrix (mdp_n m) (map (mdp_w m) (pairs_of sequence)) (Nat.div2 common) alpha in
        let p := nsum (zipwith nmul (last alpha' []) (lab_mask (mdp_n m) (mdp_lab m) lst)) in
        let ll' := if n0 <? p then ll + nln p * nofZ t else ll in
        mdp_oneproc_loop m orig l' (Some sequence) alpha' ll'
      | None, _ => Err ValueError
      | _, [] => Err IndexError
      end
    end.

  (** jajapy/mdp/MDP.py:321-358 [_logLikelihood_oneproc]: sorts a copy of the
      sequences; the user's set is not changed. *)
  Definition mdp_oneproc (m : mdp K) (s : tset (list string)) : res K :=
    let sorted := seqs (sort trace_eqb trace_leb (mkset (seqs s) (map (fun _ => 0%Z) (seqs s)) (ty s))) in
    match sorted with
    | [] => Err IndexError
    | first :: _ =>
      do ll <- mdp_oneproc_loop m s sorted None
                 (initAlphaMatrix (mdp_n m) (mdp_ini m) (Nat.div2 (length first))) n0;
      Ok (ll / nofZ (zsum (times s)))
    end.

  (** ** Timed traces of CTMCs *)

  (** A timed trace after splitting (ctmc/CTMC.py:215-216): its observations and
      its dwell times. *)
  Definition timed := (list string * list K)%type.

  (** jajapy/ctmc/CTMC.py:222, base/BW.py:617: weight of moving from ss to s
      after observing [o] for a duration [t]. *)
  Definition ct_w (m : ctmc K) (ot : string * K) : nat -> nat -> K :=
    fun ss s => ct_l m ss s (fst ot) * nexp (n0 - ct_e m ss * snd ot).

  (** jajapy/ctmc/CTMC.py:217-226.  The loop reads [times_seq[k]] for
      k < len(obs)-1; a shorter list raises IndexError. *)
  Definition ct_prob_timed (m : ctmc K) (tr : timed) : res K :=
    let (obs, ts) := tr in
    match rev obs with
    | [] => Err IndexError
    | lst :: butlast =>
      if (length ts <? length butlast)%nat then Err IndexError
      else
        let prev := fold_left (fun prev ot => fstep (ct_n m) prev (ct_w m ot)) (combine (rev butlast) ts) (ct_ini m) in
        Ok (nsum (zipwith nmul prev (lab_mask (ct_n m) (ct_lab m) lst)))
    end.

  (** jajapy/ctmc/CTMC.py:214-230 [_computeAlphas_timed] *)
  Definition ct_computeAlphas_timed (m : ctmc K) (tr : timed) (times : Z) : res (option K) :=
    do p <- ct_prob_timed m tr; Ok (log_times p times).

  (** jajapy/ctmc/CTMC.py:249-261: timed branch of [logLikelihood]. *)
  Definition ct_logLikelihood_timed (m : ctmc K) (s : list (timed * Z)) : res K :=
    do temp <- mmap (fun st => ct_computeAlphas_timed m (fst st) (snd st)) s;
    let temp := not_false temp in
    match temp with
    | [] => Ok (nofZ (-9999))
    | _ => Ok (nsum temp / nofZ (zsum (map snd s)))
    end.
End Lik.
