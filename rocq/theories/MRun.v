(** Simulation: next, run, generateSet, and the schedulers.

    Random draws are explicit: [draws k] is the value of the k-th call of
    [random()] (or of numpy's exponential) made by the run. *)
From Coq Require Import String ZArith Bool List.
From Verif Require Import Num Py MTools MSet MModels MCtor.
Import ListNotations.
Local Open Scope num_scope.

Section Run.
  Context {K : Type} `{Num K}.

  (** ** MC *)

  (** jajapy/mc/MC.py:95-120 [next]; [state] is a numpy or Python integer, used
      as an index (negative values wrap). *)
  Definition mc_next (m : mc K) (state : Z) (r : K) : res (Z * string) :=
    do row <- pyget (mc_mat m) state;
    do c <- resolveRandom row r;
    do l <- pyget (mc_lab m) state;
    Ok (Z.of_nat c, l).

  (** jajapy/mc/MC.py:140-149: the loop of [run] from [current] on; [i] counts
      the draws. *)
  Fixpoint mc_run_from (m : mc K) (steps : nat) (current : Z) (draws : nat -> K) (i : nat) : res (list string) :=
    match steps with
    | O => do l <- pyget (mc_lab m) current; Ok [l]
    | S k =>
      do cl <- mc_next m current (draws i);
      do rest <- mc_run_from m k (fst cl) draws (S i);
      Ok (snd cl :: rest)
    end.

  (** jajapy/mc/MC.py:122-150 [run(number_steps, current)]; -1 means "start in
      an initial state". *)
  Definition mc_run (m : mc K) (number_steps current : Z) (draws : nat -> K) : res (list string) :=
    if (current =? -1)%Z then
      do c <- resolveRandom (mc_ini m) (draws O);
      mc_run_from m (Z.to_nat number_steps) (Z.of_nat c) draws 1
    else mc_run_from m (Z.to_nat number_steps) current draws O.

  (** ** HMM and GoHMM *)

  (** jajapy/base/Base_HMM.py:95-140 [next_obs], [next_state], [next]: first the next state, then the
      observation. *)
  Definition hmm_next (m : hmm K) (state : Z) (r1 r2 : K) : res (Z * string) :=
    do row <- pyget (hmm_mat m) state;
    do c <- resolveRandom row r1;
    do out <- pyget (hmm_out m) state;
    do o <- resolveRandom out r2;
    do l <- pyget (hmm_alph m) (Z.of_nat o);
    Ok (Z.of_nat c, l).

  (** jajapy/base/Model.py:109-136 [run], used by HMM. *)
  Fixpoint hmm_run_from (m : hmm K) (steps : nat) (current : Z) (draws : nat -> K) (i : nat) : res (list string) :=
    match steps with
    | O => Ok []
    | S k =>
      do cl <- hmm_next m current (draws i) (draws (S i));
      do rest <- hmm_run_from m k (fst cl) draws (S (S i));
      Ok (snd cl :: rest)
    end.
  Definition hmm_run (m : hmm K) (number_steps current : Z) (draws : nat -> K) : res (list string) :=
    if (current =? -1)%Z then
      do c <- resolveRandom (hmm_ini m) (draws O);
      hmm_run_from m (Z.to_nat number_steps) (Z.of_nat c) draws 1
    else hmm_run_from m (Z.to_nat number_steps) current draws O.

  (** jajapy/gohmm/GoHMM.py:131-146 [next_obs] and base/Model.py:109-136 [run]:
      [normal mu sigma i] is the i-th sample of numpy.random.normal. *)
  Definition go_next (m : gohmm K) (state : Z) (r : K) (normal : nat -> K * K -> K) : res (Z * list K) :=
    do row <- pyget (go_mat m) state;
    do c <- resolveRandom row r;
    do ps <- pyget (go_out m) state;
    Ok (Z.of_nat c, zipwith normal (seq 0 (length ps)) ps).
  Fixpoint go_run_from (m : gohmm K) (steps : nat) (current : Z) (draws : nat -> K)
      (normal : nat -> nat -> K * K -> K) (i : nat) : res (list (list K)) :=
    match steps with
    | O => Ok []
    | S k =>
      do cl <- go_next m current (draws i) (normal i);
      do rest <- go_run_from m k (fst cl) draws normal (S i);
      Ok (snd cl :: rest)
    end.
  Definition go_run (m : gohmm K) (number_steps current : Z) (draws : nat -> K) (normal : nat -> nat -> K * K -> K)
    : res (list (list K)) :=
    if (current =? -1)%Z then
      do c <- resolveRandom (go_ini m) (draws O);
      go_run_from m (Z.to_nat number_steps) (Z.of_nat c) draws normal 1
    else go_run_from m (Z.to_nat number_steps) current draws normal O.

  (** ** CTMC *)

  (** [min(l)] of a non-empty list and the first index where it occurs. *)
  Fixpoint min_list (x : K) (l : list K) : K :=
    match l with [] => x | y :: l' => min_list (if y <? x then y else x) l' end.

  (** jajapy/ctmc/CTMC.py:163-181 [next]: (observation, next state, time).
      [sample s'] is the exponential sample drawn for the transition to s' (only
      used when its rate is positive); other transitions get 1024.  [min([])]
      raises ValueError. *)
  Definition ct_exps (row : list K) (sample : nat -> K) : list K :=
    zipwith (fun s' rate => if rate <=? n0 then nofZ 1024 else sample s') (seq 0 (length row)) row.
  Definition ct_next (m : ctmc K) (state : nat) (sample : nat -> K) : res (string * nat * K) :=
    do row <- at_list (ct_mat m) state;
    match ct_exps row sample with
    | [] => Err ValueError
    | x :: l =>
      let t := min_list x l in
      match index_of neqb t (x :: l) with
      | None => Err ValueError
      | Some s' => do o <- at_list (ct_lab m) state; Ok (o, s', t)
      end
    end.

  (** jajapy/ctmc/CTMC.py:183-212 [run]: labels and dwell times ([timed] selects
      whether the times are interleaved in the output). [samples k] are the
      samples of the k-th step. *)
  Fixpoint ct_run_from (m : ctmc K) (steps : nat) (current : nat) (samples : nat -> nat -> K) (i : nat)
    : res (list (string * K) * string) :=
    match steps with
    | O => do l <- at_list (ct_lab m) current; Ok ([], l)
    | S k =>
      do x <- ct_next m current (samples i);
      let '(o, s', t) := x in
      do rest <- ct_run_from m k s' samples (S i);
      Ok ((o, t) :: fst rest, snd rest)
    end.
  Definition ct_run (m : ctmc K) (number_steps : Z) (r0 : K) (samples : nat -> nat -> K) : res (list (string * K) * string) :=
    do c <- resolveRandom (ct_ini m) r0;
    ct_run_from m (Z.to_nat number_steps) c samples O.
  (** The list returned by run. *)
  Definition ct_output (timed : bool) (x : list (string * K) * string) : list (pv K) :=
    flat_map (fun ot => VStr (fst ot) :: (if timed then [VFlt (snd ot)] else [])) (fst x) ++ [VStr (snd x)].

  (** ** Schedulers *)

  (** The interface used by MDP.run (mdp/Scheduler.py:3-17): [S] is the internal
      state; [getAction] consumes one draw of [random()]. *)
  Record scheduler (S : Type) := mkSched {
    sch_reset : S -> S;
    sch_get : S -> K -> res string;
    sch_obs : S -> string -> res S }.
  Global Arguments sch_reset {S} _.
  Global Arguments sch_get {S} _.
  Global Arguments sch_obs {S} _.
  Global Arguments mkSched {S} _ _ _.

  (** jajapy/mdp/Scheduler.py:19-45 [UniformScheduler] *)
  Definition uniform_weights (actions : list string) : list K :=
    repeat (n1 / nofZ (Z.of_nat (length actions))) (length actions).
  Definition uniform_get (actions : list string) (r : K) : res string :=
    do i <- resolveRandom (uniform_weights actions) r; at_list actions i.
  Definition UniformScheduler (actions : list string) : scheduler unit :=
    mkSched (fun s => s) (fun _ r => uniform_get actions r) (fun s _ => Ok s).

  (** jajapy/mdp/Scheduler.py:48-79 [MemorylessScheduler].  [getAction] needs the
      argument current_state: the call without argument made by MDP.run raises
      TypeError. *)
  Definition memoryless_get (actions : list string) (current : Z) : res string := pyget actions current.
  Definition MemorylessScheduler (actions : list string) : scheduler unit :=
    mkSched (fun s => s) (fun _ _ => Err TypeError) (fun s _ => Ok s).

  (** jajapy/mdp/Scheduler.py:81-209 [FiniteMemoryScheduler].  [am] is
      action_matrix (a dict given as an association list from scheduler states),
      [tm] transition_matrix (from observations to lists of states). *)
  Fixpoint assoc {A B} (eqb : A -> A -> bool) (x : A) (l : list (A * B)) : option B :=
    match l with [] => None | (a, b) :: l' => if eqb x a then Some b else assoc eqb x l' end.
  Section FM.
    Context (am : list (Z * (list K * list string))) (tm : list (string * list Z)).
    (** 117-126 *)
    Definition fm_get (s : Z) (r : K) : res string :=
      match assoc Z.eqb s am with
      | None => Err KeyError
      | Some (ps, acts) => do i <- resolveRandom ps r; at_list acts i
      end.
    (** 128-140 *)
    Definition fm_obs (s : Z) (o : string) : res Z :=
      match assoc String.eqb o tm with None => Ok s | Some dest => pyget dest s end.
    Definition FiniteMemoryScheduler : scheduler Z := mkSched (fun _ => 0%Z) fm_get fm_obs.
    (** 164-183 [getSequenceStates]: calls the method add_observation, which does
        not exist. *)
    Definition fm_add_observation (s : Z) (o : string) : res Z := Err AttributeError.
    Definition getSequenceStates (obs : list string) : res (list Z) :=
      do x <- mfold (fun acc o => do s <- fm_add_observation (fst acc) o; Ok (s, snd acc ++ [s])) obs (0%Z, [0%Z]);
      Ok (snd x).
    (** 185-209 [getProbability]; [None] is the default state. *)
    Definition fm_getProbability (cur : Z) (action : string) (state : option Z) : res K :=
      let s := match state with None => cur | Some s => s end in
      match assoc Z.eqb s am with
      | None => Err KeyError
      | Some (ps, acts) => match index_of String.eqb action acts with
                           | None => Ok n0
                           | Some i => at_list ps i
                           end
      end.
  End FM.

  (** ** MDP *)

  (** jajapy/mdp/MDP.py:145-182 [next] *)
  Definition mdp_next (m : mdp K) (state : nat) (action : string) (r : K) : res (nat * string) :=
    match index_of String.eqb action (mdp_act m) with
    | None => Err ValueError
    | Some k =>
      do rows <- at_list (mdp_mat m) state;
      do row <- at_list rows k;
      do c <- resolveRandom row r;
      do l <- at_list (mdp_lab m) state;
      Ok (c, l)
    end.

  (** jajapy/mdp/MDP.py:206-209: ask the scheduler until the action is available.
      [draws] are the remaining draws; [None] when they are used up (the loop is
      still running). *)
  Fixpoint mdp_choose {S} (m : mdp K) (sch : scheduler S) (st : S) (s : nat) (draws : list K)
    : option (res string * list K) :=
    match draws with
    | [] => None
    | r :: draws' =>
      match sch_get sch st r with
      | Err e => Some (Err e, draws')
      | Ok a => if memb String.eqb a (getActions m s) then Some (Ok a, draws')
                else mdp_choose m sch st s draws'
      end
    end.

  (** jajapy/mdp/MDP.py:205-218 *)
  Fixpoint mdp_run_from {S} (m : mdp K) (sch : scheduler S) (steps : nat) (st : S) (current : nat) (draws : list K)
    : option (res (list string)) :=
    match steps with
    | O => Some (do l <- at_list (mdp_lab m) current; Ok [l])
    | S k =>
      match mdp_choose m sch st current draws with
      | None => None
      | Some (Err e, _) => Some (Err e)
      | Some (Ok a, []) => None
      | Some (Ok a, r :: draws') =>
        match mdp_next m current a r with
        | Err e => Some (Err e)
        | Ok (s', o) =>
          match sch_obs sch st o with
          | Err e => Some (Err e)
          | Ok st' =>
            match mdp_run_from m sch k st' s' draws' with
            | None => None
            | Some (Err e) => Some (Err e)
            | Some (Ok tr) => Some (Ok (o :: a :: tr))
            end
          end
        end
      end
    end.

  (** jajapy/mdp/MDP.py:184-220 [run] from an initial state. *)
  Definition mdp_run {S} (m : mdp K) (sch : scheduler S) (st : S) (number_steps : Z) (draws : list K)
    : option (res (list string)) :=
    match draws with
    | [] => None
    | r :: draws' =>
      match resolveRandom (mdp_ini m) r with
      | Err e => Some (Err e)
      | Ok c => mdp_run_from m sch (Z.to_nat number_steps) (sch_reset sch st) c draws'
      end
    end.

  (** ** generateSet *)

  (** The argument param: a list of sizes, an int, or something else (a float). *)
  Inductive pyparam := PList (l : list Z) | PInt (z : Z) | POther.

  Section Generate.
    Context {A : Type} (eqb : A -> A -> bool).
    (** [run i size] is the result of the i-th call of run; [geo i] the i-th
        sample of the geometric distribution (when distribution = 'geo'). *)
    Context (run : nat -> Z -> res A).

    (** jajapy/base/Model.py:177-183, mdp/MDP.py:255-261: the size of the i-th
        trace; [prev] is the value left by the previous iteration (None: not yet
        assigned). *)
    Definition gen_size (param : pyparam) (geo : option (nat -> Z)) (min_size : option Z) (i : nat) (prev : option Z) : res Z :=
      match geo with
      | Some g => match min_size with None => Err TypeError | Some k => Ok (k + g i)%Z end
      | None =>
        match param with
        | PList l => pyget l (Z.of_nat i)
        | PInt z => Ok z
        | POther => match prev with None => Err UnboundLocalError | Some z => Ok z end
        end
      end.

    (** jajapy/base/Model.py:190-194 *)
    Definition gen_add (acc : list A * list Z) (tr : A) : list A * list Z :=
      let '(ss, vs) := acc in
      if negb (memb eqb tr ss) then (ss ++ [tr], vs ++ [1%Z])
      else match index_of eqb tr ss with
           | Some j => (ss, upd vs j (nth j vs 0 + 1)%Z)
           | None => (ss, vs)
           end.

    (** jajapy/base/Model.py:174-194: the loop over [range(set_size)]. *)
    Fixpoint gen_loop (k i : nat) (param : pyparam) (geo : option (nat -> Z)) (min_size : option Z)
        (prev : option Z) (acc : list A * list Z) : res (list A * list Z) :=
      match k with
      | O => Ok acc
      | S k' =>
        do size <- gen_size param geo min_size i prev;
        do tr <- run i size;
        gen_loop k' (S i) param geo min_size (Some size) (gen_add acc tr)
      end.
    Definition gen_lists (set_size : Z) param geo min_size : res (list A * list Z) :=
      gen_loop (Z.to_nat set_size) 0 param geo min_size None ([], []).
  End Generate.

  (** jajapy/base/Model.py:138-196 [generateSet] (MC, HMM, GoHMM, CTMC), the same
      text in base/Parametric_Model.py:372-432 (PCTMC), and
      mdp/MDP.py:222-270 (type 1 given explicitly). *)
  Definition generateSet (eqb : list (pv K) -> list (pv K) -> bool) (run : nat -> Z -> res (list (pv K)))
      (t : option Z) (set_size : Z) (param : pyparam) (geo : option (nat -> Z)) (min_size : option Z) : res (tset (list (pv K))) :=
    do sv <- gen_lists eqb run set_size param geo min_size;
    newSet eqb (fst sv) (Some (snd sv)) t.
End Run.
Arguments scheduler K S : clear implicits.
