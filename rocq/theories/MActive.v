(** Model of jajapy/mdp/Active_BW_MDP.py: active learning of MDPs. *)
From Coq Require Import String ZArith Bool Arith List.
From Verif Require Import Num Py MTools MSet MModels MCtor MLik MBW MRun.
Import ListNotations.

Section Active.
  Context {K : Type} `{NK : Num K} `{TK : @Trans K}.
  Local Open Scope num_scope.

  (** ** Schedulers with memory

      The scheduler record of MRun with a [getAction] that may consume several
      draws and change the scheduler.  [None]: the draws are used up. *)
  Record gsched (S : Type) := mkG {
    g_reset : S -> S;
    g_get : S -> list K -> option (res (string * S) * list K);
    g_obs : S -> string -> res S }.
  Global Arguments mkG {S} _ _ _.
  Global Arguments g_reset {S} _.
  Global Arguments g_get {S} _.
  Global Arguments g_obs {S} _.

  (** The schedulers of MRun: one draw, no change. *)
  Definition lift_sched {S} (sch : scheduler K S) : gsched S :=
    mkG (sch_reset sch)
        (fun st draws => match draws with [] => None | r :: l => Some (do a <- sch_get sch st r; Ok (a, st), l) end)
        (sch_obs sch).

  (** jajapy/mdp/MDP.py:206-209.  [fuel] bounds the number of questions; it is
      the number of remaining draws, since every question of the schedulers used
      here consumes at least one. *)
  Fixpoint g_choose {S} (m : mdp K) (sch : gsched S) (fuel : nat) (st : S) (s : nat) (draws : list K)
    : option (res (string * S) * list K) :=
    match fuel with
    | O => None
    | Datatypes.S fuel' =>
      match g_get sch st draws with
      | None => None
      | Some (Err e, l) => Some (Err e, l)
      | Some (Ok (a, st'), l) =>
        if memb String.eqb a (getActions m s) then Some (Ok (a, st'), l)
        else g_choose m sch fuel' st' s l
      end
    end.

  (** jajapy/mdp/MDP.py:205-218.  The result also gives the scheduler after the
      run and the draws left. *)
  Fixpoint g_run_from {S} (m : mdp K) (sch : gsched S) (steps : nat) (st : S) (current : nat) (draws : list K)
    : option (res (list string * S) * list K) :=
    match steps with
    | O => Some (do l <- at_list (mdp_lab m) current; Ok ([l], st), draws)
    | Datatypes.S k =>
      match g_choose m sch (length draws) st current draws with
      | None => None
      | Some (Err e, l) => Some (Err e, l)
      | Some (Ok (a, st1), []) => None
      | Some (Ok (a, st1), r :: l) =>
        match mdp_next m current a r with
        | Err e => Some (Err e, l)
        | Ok (s', o) =>
          match g_obs sch st1 o with
          | Err e => Some (Err e, l)
          | Ok st2 =>
            match g_run_from m sch k st2 s' l with
            | None => None
            | Some (Err e, l') => Some (Err e, l')
            | Some (Ok (tr, st3), l') => Some (Ok (o :: a :: tr, st3), l')
            end
          end
        end
      end
    end.
  (** jajapy/mdp/MDP.py:184-220 [run] from an initial state. *)
  Definition g_run {S} (m : mdp K) (sch : gsched S) (st : S) (number_steps : Z) (draws : list K)
    : option (res (list string * S) * list K) :=
    match draws with
    | [] => None
    | r :: l =>
      match resolveRandom (mdp_ini m) r with
      | Err e => Some (Err e, l)
      | Ok c => g_run_from m sch (Z.to_nat number_steps) (g_reset sch st) c l
      end
    end.

  (** ** The exploration scheduler *)

  (** jajapy/mdp/Active_BW_MDP.py:14-33: the attributes that change: the counts
      (None when [mat] is not a matrix but the number 0, see [strategy]), the
      belief, the index of the last action. *)
  Record al_state := mkAL { al_mat : option (list (list K)); al_belief : list K; al_last : option nat }.

  (** Active_BW_MDP.py:28-33 [reset]; m.pi(s) is initial_state[s]. *)
  Definition al_reset (h : mdp K) (st : al_state) : al_state :=
    mkAL (al_mat st) (vbuild (mdp_n h) (fun s => vget (mdp_ini h) s)) None.
  (** Active_BW_MDP.py:14-26 *)
  Definition al_new (mat : option (list (list K))) (h : mdp K) : al_state := al_reset h (mkAL mat [] None).

  (** Active_BW_MDP.py:50-51: the weights of the actions in a state.  When the
      denominator is 0, numpy computes 0/0 for every action: the counts are then
      all 0, or there is a single action.  [None] stands for a list of nan. *)
  Definition al_weights (nb_actions : nat) (row : list K) : option (list K) :=
    let tot := nsum row in
    let den := tot * nofZ (Z.of_nat nb_actions - 1) in
    if den =? n0 then None else Some (map (fun i => (tot - i) / den) row).
  (** Active_BW_MDP.py:35-52 [getActionState].  On a list of nan, resolveRandom
      returns its first index: nan is not zero and [r > nan] is false. *)
  Definition al_getActionState (nb_actions : nat) (row : list K) (r : K) : res nat :=
    match al_weights nb_actions row with
    | Some w => resolveRandom w r
    | None => match row with [] => Err IndexError | _ => Ok O end
    end.
  (** Active_BW_MDP.py:64-68: the distribution of the expected current state. *)
  Definition al_states (belief : list K) : list K :=
    let tot := nsum belief in
    if tot <=? n0 then repeat (n1 / nofZ (Z.of_nat (length belief))) (length belief)
    else map (fun i => i / tot) belief.
  (** Active_BW_MDP.py:55-71 [getAction]: two draws. *)
  Definition al_getAction (h : mdp K) (st : al_state) (draws : list K) : option (res (string * al_state) * list K) :=
    match draws with
    | [] => None
    | r1 :: l1 =>
      match resolveRandom (al_states (al_belief st)) r1 with
      | Err e => Some (Err e, l1)
      | Ok s =>
        match al_mat st with
        | None => Some (Err TypeError, l1)
        | Some mat =>
          match at_list mat s with
          | Err e => Some (Err e, l1)
          | Ok row =>
            match l1 with
            | [] => None
            | r2 :: l2 =>
              Some (do k <- al_getActionState (length (mdp_act h)) row r2;
                    do a <- at_list (mdp_act h) k;
                    Ok (a, mkAL (al_mat st) (al_belief st) (Some k)), l2)
            end
          end
        end
      end
    end.

  (** Active_BW_MDP.py:85-86: the counts of the last action. *)
  Definition al_count (n : nat) (belief : list K) (tot : K) (k : nat) (mat : list (list K)) : list (list K) :=
    fold_left (fun m s => upd m s (upd (nth s m []) k (vget (nth s m []) k + vget belief s / tot))) (seq 0 n) mat.
  (** Active_BW_MDP.py:74-91 [addObservation].  Without a previous action the
      indexing of [actions] raises TypeError. *)
  Definition al_addObservation (h : mdp K) (st : al_state) (obs : string) : res al_state :=
    let tot := nsum (al_belief st) in
    if n0 <? tot then
      match al_last st, al_mat st with
      | Some k, Some mat =>
        do a <- at_list (mdp_act h) k;
        let belief := vbuild (mdp_n h) (fun s =>
              nsum (zipwith nmul (al_belief st) (vbuild (mdp_n h) (fun ss => mdp_tau h ss a s obs)))) in
        Ok (mkAL (Some (al_count (mdp_n h) (al_belief st) tot k mat)) belief (Some k))
      | _, _ => Err TypeError
      end
    else Ok st.
  Definition ActiveLearningScheduler (h : mdp K) : gsched al_state :=
    mkG (al_reset h) (al_getAction h) (al_addObservation h).

  (** ** The exploration strategy *)

  (** Active_BW_MDP.py:341-355 [_computeProbas]; [None] is False. *)
  Definition computeProbas (h : mdp K) (sequence : list string) (times : Z) : option (list (list K)) :=
    let n := mdp_n h in
    let oas := pairs_of sequence in
    let ws := map (mdp_w h) oas in
    let mask := mdp_mask h sequence in
    let alphas := mask_last mask (bw_alphas n (mdp_ini h) ws) in
    let betas := bw_betas n (zipwith nmul (vones n) mask) ws in
    let proba := proba_of alphas in
    if proba <=? n0 then None
    else
      let factor := nofZ times / proba in
      Some (vbuild n (fun s => map (fun a =>
              nsum (map (fun x => x * factor)
                (zipwith nmul (zipwith nmul (col_init alphas s) (col_init betas s))
                   (map (fun oa => if String.eqb (snd oa) a then n1 else n0) oas)))) (mdp_act h))).

  (** Active_BW_MDP.py:328-339 [_strategy].  With several processes the test
      [res != False] is made on the asynchronous results, not on their values:
      False stays in the sum, where it counts as 0.  With one process the test
      [i != False] on a matrix with more than one entry raises ValueError; a matrix
      with one entry is dropped when the entry is 0.
      [Ok None]: the sum is the number 0. *)
  Definition strategy (processes : nat) (h : mdp K) (set : list (list string * Z)) : res (option (list (list K))) :=
    let results := map (fun st => computeProbas h (fst st) (snd st)) set in
    let mats := flat_map (fun r => match r with Some m => [m] | None => [] end) results in
    if negb (1 <? processes)%nat && negb (mdp_n h * length (mdp_act h) =? 1)%nat && negb (length mats =? 0)%nat then Err ValueError
    else
      let mats := if (1 <? processes)%nat then mats else filter (fun m => negb (mget m 0 0 =? n0)) mats in
      Ok match mats with [] => None | m :: r => Some (fold_left madd r m) end.

  (** ** Sampling *)

  Definition tr_eqb : list string -> list string -> bool := lex_eqb String.eqb.

  (** Active_BW_MDP.py:315-325: the loop of [_addTraces] *)
  Fixpoint sample_loop (h sul : mdp K) (L : Z) (epsilon_greedy : K) (k : nat) (st : al_state)
      (acc : list (list string) * list Z) (draws : list K) : option (res (list (list string) * list Z) * list K) :=
    match k with
    | O => Some (Ok acc, draws)
    | Datatypes.S k' =>
      match draws with
      | [] => None
      | r :: l =>
        if epsilon_greedy <? r then
          match g_run sul (lift_sched (UniformScheduler (mdp_act h))) tt L l with
          | None => None
          | Some (Err e, l') => Some (Err e, l')
          | Some (Ok (tr, _), l') => sample_loop h sul L epsilon_greedy k' st (gen_add tr_eqb acc tr) l'
          end
        else
          match g_run sul (ActiveLearningScheduler h) st L l with
          | None => None
          | Some (Err e, l') => Some (Err e, l')
          | Some (Ok (tr, st'), l') => sample_loop h sul L epsilon_greedy k' st' (gen_add tr_eqb acc tr) l'
          end
      end
    end.
  (** Active_BW_MDP.py:288-326 [_addTraces] *)
  Definition addTraces (processes : nat) (h sul : mdp K) (L : Z) (nb_sequence : Z) (traces : tset (list string))
      (epsilon_greedy : K) (draws : list K) : option (res (tset (list string)) * list K) :=
    match strategy processes h (combine (seqs traces) (times traces)) with
    | Err e => Some (Err e, draws)
    | Ok mat =>
      match sample_loop h sul L epsilon_greedy (Z.to_nat nb_sequence) (al_new mat h) ([], []) draws with
      | None => None
      | Some (Err e, l) => Some (Err e, l)
      | Some (Ok (ss, ts), l) => Some (Ok (mkset ss ts (Some 1%Z)), l)
      end
    end.

  (** ** The learning loop *)

  (** The argument lr: a number, or the string "dynamic". *)
  Inductive rate := Dynamic | Rate (x : K).

  (** The state of [fit].  Models are mutable objects: [heap] maps locations to
      models, [self_h] is the location of [self.h], [total] the Set object
      [total_traces] (the object given by the caller), [rounds] the counter. *)
  Record astate := mkA { heap : list (mdp K); self_h : nat; total : tset (list string); rounds : nat }.
  Definition no_mdp : mdp K := mkMDP [] [] [] [] EmptyString.
  Definition deref (hp : list (mdp K)) (l : nat) : mdp K := nth l hp no_mdp.

  Definition set_matrix (m : mdp K) (mat : list (list (list K))) : mdp K :=
    mkMDP mat (mdp_lab m) (mdp_act m) (mdp_ini m) (mdp_name m).

  (** jajapy/base/BW.py:1415-1432 and 280-325: super().fit with the model at
      location [l] as initial model: self.h is that same object and every round
      assigns its attribute matrix (BW.py:486).  [None]: still running after
      [fuel] rounds.  The preparation of the set is not repeated here: it changes
      nothing when the observation 'init' occurs in the set (see MPrep). *)
  Definition bw_fit (processes fuel : nat) (epsilon : K) (set : tset (list string)) (hp : list (mdp K)) (l : nat)
    : option (res (list (mdp K) * nat * nat)) :=
    match bw_loop (round_MDP processes (combine (seqs set) (times set))) epsilon fuel None 0 (deref hp l) with
    | Err e => Some (Err e)
    | Ok (m', c, _, stopped) => if stopped then Some (Ok (upd hp l m', l, c)) else None
    end.

  (** Active_BW_MDP.py:272-286 [_mergeModels] on the objects at [lh] and [lo]. *)
  Definition mix_matrix (lr : K) (a b : list (list (list K))) : list (list (list K)) :=
    zipwith (zipwith (zipwith (fun x y => lr * x + (n1 - lr) * y))) a b.
  Definition mergeModels (hp : list (mdp K)) (lh lo : nat) (lr : K) : list (mdp K) :=
    upd hp lh (set_matrix (deref hp lh) (mix_matrix lr (mdp_mat (deref hp lh)) (mdp_mat (deref hp lo)))).

  (** Active_BW_MDP.py:234-237: the rate of one iteration; [all] is the total
      number of traces after the sample has been added, [new] its size. *)
  Definition lr_it (lr : rate) (new all : Z) : K :=
    match lr with Dynamic => nofZ new / nofZ (all - new) | Rate x => x end.

  Definition rate_is_zero (lr : rate) : bool := match lr with Dynamic => false | Rate x => x =? n0 end.

  (** Active_BW_MDP.py:223-244: one iteration of the loop of [fit].  [max_it] is
      not passed to the calls of super().fit. *)
  Definition active_iter (processes fuel : nat) (epsilon : K) (sul : mdp K) (lr : rate) (L nb_sequences : Z)
      (epsilon_greedy : K) (st : astate) (draws : list K) : option (res astate * list K) :=
    match addTraces processes (deref (heap st) (self_h st)) sul L nb_sequences (total st) epsilon_greedy draws with
    | None => None
    | Some (Err e, l) => Some (Err e, l)
    | Some (Ok sample, l) =>
      match addSet tr_eqb (total st) sample with
      | Err e => Some (Err e, l)
      | Ok total' =>
        if rate_is_zero lr then
          match bw_fit processes fuel epsilon total' (heap st) (self_h st) with
          | None => None
          | Some (Err e) => Some (Err e, l)
          | Some (Ok (hp, lh, c)) => Some (Ok (mkA hp lh total' (rounds st + c)), l)
          end
        else
          let lr' := lr_it lr (zsum (times sample)) (zsum (times total')) in
          let old_h := self_h st in
          match bw_fit processes fuel epsilon sample (heap st) (self_h st) with
          | None => None
          | Some (Err e) => Some (Err e, l)
          | Some (Ok (hp, lh, c)) =>
            Some (Ok (mkA (mergeModels hp lh old_h lr') lh total' (rounds st + c)), l)
          end
      end
    end.
  (** Active_BW_MDP.py:222-246 *)
  Fixpoint active_loop (processes fuel : nat) (epsilon : K) (sul : mdp K) (lr : rate) (L nb_sequences : Z)
      (epsilon_greedy : K) (iterations : nat) (st : astate) (draws : list K) : option (res astate * list K) :=
    match iterations with
    | O => Some (Ok st, draws)
    | Datatypes.S k =>
      match active_iter processes fuel epsilon sul lr L nb_sequences epsilon_greedy st draws with
      | None => None
      | Some (Err e, l) => Some (Err e, l)
      | Some (Ok st', l) => active_loop processes fuel epsilon sul lr L nb_sequences epsilon_greedy k st' l
      end
    end.

  (** The training set given by the caller. *)
  Inductive atraining := ASet (s : tset (list string)) | AList (l : list (list string)).
  (** The Set built by super().fit. *)
  Definition atraining_set (t : atraining) : tset (list string) :=
    match t with ASet s => s | AList l => let '(ss, ts) := setFromList tr_eqb l in mkset ss ts (Some 0%Z) end.

  (** Active_BW_MDP.py:104-270 [fit].  [stormpy] : is stormpy installed;
      [verbose_set]: does the object have the attribute verbose (set by a previous
      call of fit).  The initial model is the object at location 0.  Files,
      printing and the conversion to stormpy are not modelled. *)
  Definition active_fit (stormpy stormpy_output verbose_set : bool) (processes fuel max_it : nat) (epsilon : K) (sul : mdp K) (lr : rate)
      (nb_iterations nb_sequences : Z) (sequence_length : option Z) (epsilon_greedy : K) (t : atraining) (h0 : mdp K) (draws : list K)
    : option (res astate * list K) :=
    if stormpy_output && negb stormpy && negb verbose_set then Some (Err AttributeError, draws)
    else
      let s := atraining_set t in
      match bw_loop (round_MDP processes (combine (seqs s) (times s))) epsilon max_it None 0 h0 with
      | Err e => Some (Err e, draws)
      | Ok (h1, c, _, _) =>
        match t with
        | AList _ =>
          match sequence_length with
          | None => Some (Err AttributeError, draws)
          | Some _ => if (nb_iterations <=? 0)%Z then Some (Ok (mkA [h1] 0 s c), draws) else Some (Err AttributeError, draws)
          end
        | ASet _ =>
          match sequence_length, seqs s with
          | None, [] => Some (Err IndexError, draws)
          | _, _ =>
            let L := match sequence_length with Some L => L | None => Z.of_nat (Nat.div2 (length (nth 0 (seqs s) []))) end in
            active_loop processes fuel epsilon sul lr L nb_sequences epsilon_greedy (Z.to_nat nb_iterations) (mkA [h1] 0 s c) draws
          end
        end
      end.
End Active.
Arguments gsched K S : clear implicits.
Arguments al_state K : clear implicits.
Arguments rate K : clear implicits.
Arguments astate K : clear implicits.
