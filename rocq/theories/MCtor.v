(** Constructors, accessors with their checks, updateLabelling and the create
    functions.  The loops of the library over all states use the accessors of
    MModels.v (ids in range); here ids are arbitrary Python values. *)
From Coq Require Import String ZArith Bool List.
From Verif Require Import Num Py MTools MModels.
Import ListNotations.
Local Open Scope num_scope.

(** A Python value given as state id: an int, a numpy.int64 (the type of the
    elements of integer arrays, as returned by tools.py:64), or anything else. *)
Inductive pyid := IdInt (z : Z) | IdNp (z : Z) | IdOther.

Section Ctor.
  Context {K : Type} `{Num K}.

  (** jajapy/base/Model.py:383-389 [_checkStateIndex] *)
  Definition checkStateIndex (n : nat) (s : pyid) : res nat :=
    match s with
    | IdInt z => if (z <? 0)%Z then Err IndexError
                 else if (Z.of_nat n <=? z)%Z then Err IndexError
                 else Ok (Z.to_nat z)
    | _ => Err TypeError
    end.

  (** [l[i]], [m[i][j]] for non-negative indices. *)
  Definition at_list {A} (l : list A) (i : nat) : res A :=
    match nth_error l i with Some x => Ok x | None => Err IndexError end.
  Definition at_mat {A} (m : list (list A)) (i j : nat) : res A :=
    do r <- at_list m i; at_list r j.

  (** jajapy/base/Base_MC.py:59-79 [getLabel], 81-84 [b], for MC, MDP, CTMC ([n] is
      nb_states). *)
  Definition getLabel (n : nat) (l : list string) (s : pyid) : res string :=
    do i <- checkStateIndex n s; at_list l i.
  Definition label_b (n : nat) (l : list string) (s : pyid) (o : string) : res K :=
    do x <- getLabel n l s; Ok (if String.eqb x o then n1 else n0).

  (** jajapy/mc/MC.py:70-93 [a], 34-68 [tau] *)
  Definition MC_a (m : mc K) (s1 s2 : pyid) : res K :=
    do i <- checkStateIndex (mc_n m) s1; do j <- checkStateIndex (mc_n m) s2;
    at_mat (mc_mat m) i j.
  Definition MC_tau (m : mc K) (s1 s2 : pyid) (o : string) : res K :=
    do i <- checkStateIndex (mc_n m) s1; do j <- checkStateIndex (mc_n m) s2;
    do l <- at_list (mc_lab m) i;
    if negb (String.eqb o l) then Ok n0 else at_mat (mc_mat m) i j.

  (** jajapy/base/Base_HMM.py:33-59 [a] (also GoHMM), 61-80 [tau]; hmm/HMM.py:41-67
      [b]: no check of the type of [s], 0 out of range. [IdOther] would raise
      TypeError in the comparison. *)
  Definition mat_a (mat : list (list K)) (s1 s2 : pyid) : res K :=
    do i <- checkStateIndex (length mat) s1; do j <- checkStateIndex (length mat) s2;
    at_mat mat i j.
  Definition HMM_b (m : hmm K) (s : pyid) (o : string) : res K :=
    match s with
    | IdInt z | IdNp z =>
      if (z <? 0)%Z then Ok n0
      else if (Z.of_nat (hmm_n m) <=? z)%Z then Ok n0
      else match index_of String.eqb o (hmm_alph m) with
           | None => Ok n0
           | Some i => at_mat (hmm_out m) (Z.to_nat z) i
           end
    | IdOther => Err TypeError
    end.
  Definition HMM_tau (m : hmm K) (s1 s2 : pyid) (o : string) : res K :=
    do a <- mat_a (hmm_mat m) s1 s2; do b <- HMM_b m s1 o; Ok (a * b).

  (** jajapy/mdp/MDP.py:118-143 [a], 76-116 [tau] *)
  Definition MDP_a (m : mdp K) (s1 s2 : pyid) (act : string) : res K :=
    do i <- checkStateIndex (mdp_n m) s1; do j <- checkStateIndex (mdp_n m) s2;
    match index_of String.eqb act (mdp_act m) with
    | None => Err ValueError
    | Some k => do r <- at_list (mdp_mat m) i; at_mat r k j
    end.
  Definition MDP_tau (m : mdp K) (s1 : pyid) (act : string) (s2 : pyid) (o : string) : res K :=
    do i <- checkStateIndex (mdp_n m) s1; do j <- checkStateIndex (mdp_n m) s2;
    do l <- at_list (mdp_lab m) i;
    if negb (String.eqb o l) then Ok n0
    else match index_of String.eqb act (mdp_act m) with
         | None => Ok n0
         | Some k => do r <- at_list (mdp_mat m) i; at_mat r k j
         end.

  (** jajapy/mdp/MDP.py:47-73 [getActions(state)] for an id in range: the actions
      whose row has a positive sum ([list(set(...))]: the order is arbitrary in
      Python). *)
  Definition getActions (m : mdp K) (s : nat) : list string :=
    flat_map (fun k => if n0 <? nsum (nth k (nth s (mdp_mat m) []) []) then [nth k (mdp_act m) EmptyString] else [])
             (seq 0 (length (mdp_act m))).

  (** jajapy/ctmc/CTMC.py:54-67 [e], 70-93 [l], 115-134 [tau] (numpy division: a
      zero exit rate gives NaN; not modelled), 136-151 [expected_time] *)
  Definition CTMC_e (m : ctmc K) (s : pyid) : res K :=
    do i <- checkStateIndex (ct_n m) s; do r <- at_list (ct_mat m) i; Ok (nsum r).
  Definition CTMC_l (m : ctmc K) (s1 s2 : pyid) (o : string) : res K :=
    do i <- checkStateIndex (ct_n m) s1; do j <- checkStateIndex (ct_n m) s2;
    do l <- at_list (ct_lab m) i;
    if negb (String.eqb l o) then Ok n0 else at_mat (ct_mat m) i j.
  Definition CTMC_tau (m : ctmc K) (s1 s2 : pyid) (o : string) : res K :=
    do l <- CTMC_l m s1 s2 o; do e <- CTMC_e m s1; Ok (l / e).
  Definition CTMC_expected_time (m : ctmc K) (s : pyid) : res K :=
    do e <- CTMC_e m s; Ok (n1 / e).

  (** jajapy/base/Model.py:93-107 [pi]: numpy indexing, no check. *)
  Definition model_pi (ini : list K) (s : Z) : res K := pyget ini s.

  (** ** Constructors *)

  (** The argument initial_state: an int or a sequence of numbers. *)
  Inductive pyini := IniInt (z : Z) | IniList (l : list K).

  (** [round(x)]: nearest integer, ties to even. *)
  Definition round0 (x : K) : Z :=
    let f := nfloor x in
    let d := nofZ 2 * (x - nofZ f) in
    if d <? n1 then f
    else if n1 <? d then (f + 1)%Z
    else if Z.even f then f else (f + 1)%Z.

  (** jajapy/base/Model.py:40-52 *)
  Definition model_init (n : nat) (i : pyini) : res (list K) :=
    match i with
    | IniInt z => pyset (vzeros n) z n1
    | IniList l => if negb (round0 (nsum l) =? 1)%Z then Err ValueError else Ok l
    end.

  (** jajapy/base/Base_MC.py:27-38: the initial distribution from the labels;
      [n] is the number of rows of the matrix. *)
  Definition base_mc_init (n : nat) (labels : list string) : res (list K) :=
    if negb (memb String.eqb "init"%string labels) then Err ValueError
    else
      let p := n1 / nofZ (Z.of_nat (countb String.eqb "init"%string labels)) in
      do ini <- model_init n (IniList (map (fun l => if String.eqb l "init" then p else n0) labels));
      if negb (length labels =? n)%nat then Err ValueError else Ok ini.

  (** jajapy/mc/MC.py:26-32 *)
  Definition MC_new (matrix : list (list K)) (labels : list string) (name : string) : res (mc K) :=
    do ini <- base_mc_init (length matrix) labels;
    if forallb checkProbabilities matrix then Ok (mkMC matrix labels ini name) else Err ValueError.

  (** jajapy/mdp/MDP.py:35-45.  [matrix[i][a]] for each action id [a]: IndexError
      when a row of the matrix has fewer actions. *)
  Fixpoint mdp_rows_ok (na : nat) (l : list (list (list K))) : res unit :=
    match l with
    | [] => Ok tt
    | r :: l' =>
      do _ <- mfold (fun _ a => do x <- at_list r a; if checkProbabilities x then Ok tt else Err ValueError) (seq 0 na) tt;
      mdp_rows_ok na l'
    end.
  Definition MDP_new (matrix : list (list (list K))) (labels actions : list string) (name : string) : res (mdp K) :=
    do ini <- base_mc_init (length matrix) labels;
    do _ <- mdp_rows_ok (length actions) matrix;
    Ok (mkMDP matrix labels actions ini name).

  (** jajapy/ctmc/CTMC.py:45-52: only prints warnings about the rates. *)
  Definition CTMC_new (matrix : list (list K)) (labels : list string) (name : string) : res (ctmc K) :=
    do ini <- base_mc_init (length matrix) labels;
    Ok (mkCTMC matrix labels ini name).

  (** jajapy/base/Base_HMM.py:27-30 *)
  Definition base_hmm_init (matrix : list (list K)) (i : pyini) : res (list K) :=
    do ini <- model_init (length matrix) i;
    if forallb checkProbabilities matrix then Ok ini else Err ValueError.

  (** jajapy/hmm/HMM.py:32-39.  [out_list] says that the argument output is a
      Python list of lists and not an array: then [output[i].sum()] raises
      AttributeError.  [output[i]] raises IndexError when there are fewer rows
      than states. *)
  Fixpoint out_rows_ok (out_list : bool) (n : nat) (output : list (list K)) : res unit :=
    match n, output with
    | O, _ => Ok tt
    | S _, [] => Err IndexError
    | S n', r :: o' => if out_list then Err AttributeError
                       else if checkProbabilities r then out_rows_ok out_list n' o' else Err ValueError
    end.
  Definition HMM_new (matrix output : list (list K)) (out_list : bool) (alphabet : list string)
      (i : pyini) (name : string) : res (hmm K) :=
    do ini <- base_hmm_init matrix i;
    do _ <- out_rows_ok out_list (length matrix) output;
    Ok (mkHMM matrix output alphabet ini name).

  (** jajapy/gohmm/GoHMM.py:32-48, for an output whose distributions all have two
      parameters. [min] of an empty sequence raises ValueError. *)
  Definition GoHMM_new (matrix : list (list K)) (output : list (list (K * K))) (i : pyini) (name : string) : res (gohmm K) :=
    match output with
    | [] => Err IndexError
    | o0 :: _ =>
      if negb (forallb (fun o => (length o =? length o0)%nat) output) then Err ValueError
      else match concat output with
      | [] => Err ValueError
      | _ =>
        if existsb (fun p => snd p <? n0) (concat output) then Err ValueError
        else
          do ini <- base_hmm_init matrix i;
          if negb (2 * length (concat output) =? length o0 * length matrix * 2)%nat then Err ValueError
          else Ok (mkGO matrix output ini name)
      end
    end.

  (** ** updateLabelling *)

  (** jajapy/base/Base_MC.py:40-57: the new labels of the model and the list
      given by the user after the call.  The initial distribution is not
      touched. *)
  Definition updateLabelling (n : nat) (old new : list string) : list string * list string :=
    let new := if (length new =? n - 1)%nat then new ++ ["init"%string] else new in
    if memb String.eqb "init"%string new then (new, new) else (old, new).
  Definition MC_updateLabelling (m : mc K) (new : list string) : mc K * list string :=
    let (l, new') := updateLabelling (mc_n m) (mc_lab m) new in
    (mkMC (mc_mat m) l (mc_ini m) (mc_name m), new').

  (** ** create functions *)

  (** [x = list(set(l)); x.sort()] *)
  Section SortedSet.
    Context {A : Type} (eqb leb : A -> A -> bool).
    Fixpoint ins (x : A) (l : list A) : list A :=
      match l with [] => [x] | y :: l' => if leb x y then x :: l else y :: ins x l' end.
    Fixpoint isort_list (l : list A) : list A :=
      match l with [] => [] | x :: l' => ins x (isort_list l') end.
    Definition sorted_set (l : list A) : list A := isort_list (dedup eqb l).
  End SortedSet.

  Definition index_err {A} (eqb : A -> A -> bool) (x : A) (l : list A) : res nat :=
    match index_of eqb x l with Some i => Ok i | None => Err ValueError end.

  (** [m[i][j] = x] for indices in range. *)
  Definition mat_set {A} (m : list (list A)) (i j : nat) (x : A) : list (list A) :=
    upd m i (upd (nth i m []) j x).

  (** [for t in transitions: res[states.index(t[0])][states.index(t[1])] = t[2]]
      (mc/MC.py:333-334, hmm/HMM.py:279-280, ctmc/CTMC.py:484-485, gohmm/GoHMM.py:316-317) *)
  Definition fill (states : list Z) (ts : list (Z * Z * K)) (m : list (list K)) : res (list (list K)) :=
    mfold (fun m t => let '(s, s', p) := t in
             do i <- index_err Z.eqb s states; do j <- index_err Z.eqb s' states;
             Ok (mat_set m i j p)) ts m.
  Definition zeros2 (r c : nat) : list (list K) := repeat (vzeros c) r.

  Definition states_of (ts : list (Z * Z * K)) : list Z :=
    sorted_set Z.eqb Z.leb (map (fun t => fst (fst t)) ts ++ map (fun t => snd (fst t)) ts).

  (** [vstack((res,zeros(len(res))))] and [hstack((res,zeros(len(res))[:,newaxis]))]
      with the last row replaced (mc/MC.py:337-347). *)
  Definition with_init (m : list (list K)) (row : list K) : list (list K) :=
    map (fun r => r ++ [n0]) m ++ [row].

  (** jajapy/mc/MC.py:281-350 [createMC].  The second component is the list
      given as labelling after the call (it is appended to). *)
  Definition createMC (ts : list (Z * Z * K)) (labels : list string) (i : pyini) (name : string)
    : res (mc K) * list string :=
    if memb String.eqb "init"%string labels then (Err SyntaxError, labels)
    else
      let states := states_of ts in
      let n := length states in
      if (length labels <? n)%nat then (Err ValueError, labels)
      else
        match fill states ts (zeros2 n n) with
        | Err e => (Err e, labels)
        | Ok m =>
          let labels' := labels ++ ["init"%string] in
          (do row <- match i with
                     | IniInt z => pyset (vzeros (n + 1)) z n1
                     | IniList l => if negb (length l =? n)%nat then Err ValueError else Ok (l ++ [n0])
                     end;
           MC_new (with_init m row) labels' name, labels')
        end.

  (** Assignment of a 1-D array to a row of length [k] with numpy's broadcasting:
      a single element is repeated. *)
  Definition assign_row (k : nat) (l : list K) : res (list K) :=
    if (length l =? k)%nat then Ok l
    else match l with [x] => Ok (repeat x k) | _ => Err ValueError end.

  (** jajapy/ctmc/CTMC.py:426-500 [createCTMC]; [sync] holds the source and
      destination of the synchronous transitions. *)
  Definition createCTMC (ts : list (Z * Z * K)) (labels : list string) (i : pyini) (name : string)
      (sync : list (Z * Z)) : res (ctmc K) * list string :=
    if memb String.eqb "init"%string labels then (Err SyntaxError, labels)
    else
      let states := sorted_set Z.eqb Z.leb
            (map (fun t => fst (fst t)) ts ++ map (fun t => snd (fst t)) ts ++ map fst sync ++ map snd sync) in
      let n := length states in
      if (length labels <? n)%nat then (Err ValueError, labels)
      else
        match fill states ts (zeros2 n n) with
        | Err e => (Err e, labels)
        | Ok m =>
          let labels' := labels ++ ["init"%string] in
          (do row <- match i with
                     | IniInt z => pyset (vzeros (n + 1)) z n1
                     | IniList l => assign_row (n + 1) (l ++ [n0])
                     end;
           CTMC_new (with_init m row) labels' name, labels')
        end.

  (** jajapy/mdp/MDP.py:539-600 [createMDP] *)
  Definition fill_mdp (states : list Z) (actions : list string) (ts : list (Z * string * Z * K))
      (m : list (list (list K))) : res (list (list (list K))) :=
    mfold (fun m t => let '(s, a, s', p) := t in
             do i <- index_err Z.eqb s states; do k <- index_err String.eqb a actions;
             do j <- index_err Z.eqb s' states;
             Ok (upd m i (mat_set (nth i m []) k j p))) ts m.
  Definition createMDP (ts : list (Z * string * Z * K)) (labels : list string) (i : pyini) (name : string)
    : res (mdp K) * list string :=
    if memb String.eqb "init"%string labels then (Err SyntaxError, labels)
    else
      let states := sorted_set Z.eqb Z.leb
            (map (fun t => fst (fst (fst t))) ts ++ map (fun t => snd (fst t)) ts) in
      let n := length states in
      let actions := sorted_set String.eqb String.leb (map (fun t => snd (fst (fst t))) ts) in
      let na := length actions in
      if (length labels <? n)%nat then (Err ValueError, labels)
      else
        match fill_mdp states actions ts (repeat (zeros2 na n) n) with
        | Err e => (Err e, labels)
        | Ok m =>
          let labels' := labels ++ ["init"%string] in
          (do rows <- mmap (fun _ => match i with
                                     | IniInt z => pyset (vzeros (n + 1)) z n1
                                     | IniList l => assign_row (n + 1) (l ++ [n0])
                                     end) (seq 0 na);
           MDP_new (map (map (fun r => r ++ [n0])) m ++ [rows]) labels' actions name, labels')
        end.

  (** jajapy/hmm/HMM.py:231-284 [createHMM].  [alphabet] is [list(set(...))] of
      the emitted symbols, whose order is arbitrary: it is an argument here. *)
  Definition fill_out (states : list Z) (alphabet : list string) (es : list (Z * string * K))
      (m : list (list K)) : res (list (list K)) :=
    mfold (fun m t => let '(s, o, p) := t in
             do i <- index_err Z.eqb s states; do j <- index_err String.eqb o alphabet;
             Ok (mat_set m i j p)) es m.
  Definition createHMM (ts : list (Z * Z * K)) (es : list (Z * string * K)) (i : pyini) (name : string)
      (alphabet : list string) : res (hmm K) :=
    let states := states_of ts in
    let n := length states in
    do m <- fill states ts (zeros2 n n);
    do o <- fill_out states alphabet es (zeros2 n (length alphabet));
    HMM_new m o false alphabet i name.

  (** jajapy/gohmm/GoHMM.py:312-325 [createGoHMM].  The argument output is
      overwritten by [array((nb_states,nb_distributions,2))], an array of three
      integers, and the loop then iterates over its elements. *)
  Definition enumerate_int (z : Z) : res unit := Err TypeError.
  Definition createGoHMM (ts : list (Z * Z * K)) (output : list (list (K * K))) (i : pyini) (name : string)
    : res (gohmm K) :=
    let states := states_of ts in
    match output with
    | [] => Err IndexError
    | o0 :: _ =>
      let n := length states in
      do m <- fill states ts (zeros2 n n);
      let output' := [Z.of_nat n; Z.of_nat (length o0); 2%Z] in
      do _ <- mfold (fun _ z => enumerate_int z) output' tt;
      GoHMM_new m [] i name
    end.
End Ctor.
Arguments pyini K : clear implicits.
