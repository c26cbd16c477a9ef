(** Parametric CTMCs: expressions, constructor, instantiation, accessors,
    simulation, likelihood of timed traces and createPCTMC.

    sympy is modelled by polynomials: an expression is a tree of constants,
    parameters, sums, differences, products and natural powers.  Its automatic
    simplifications (x - x becomes 0), divisions and functions are not
    modelled.  nan values are not modelled except in the constructor. *)
From Coq Require Import String ZArith Bool List.
From Verif Require Import Num Py MTools MSet MModels MCtor MRun MLik.
Import ListNotations.
Local Open Scope num_scope.

Section Expr.
  Context {K : Type} `{Num K}.

  Inductive expr := EConst (c : K) | EVar (x : string) | EAdd (a b : expr) | ESub (a b : expr) | EMul (a b : expr) | EPow (a : expr) (n : nat).

  (** A dict from parameter names to values, in insertion order. *)
  Definition dict := list (string * K).
  Fixpoint dget (d : dict) (x : string) : option K :=
    match d with [] => None | (y, v) :: d' => if String.eqb x y then Some v else dget d' x end.
  (** [d[x] = v] *)
  Fixpoint dset (d : dict) (x : string) (v : K) : dict :=
    match d with
    | [] => [(x, v)]
    | (y, w) :: d' => if String.eqb x y then (y, v) :: d' else (y, w) :: dset d' x v
    end.

  Fixpoint npow (x : K) (n : nat) : K := match n with O => n1 | S n' => x * npow x n' end.

  (** [float(expr.evalf(subs=d))]: [None] when a parameter has no value (the
      TypeError caught in base/Parametric_Model.py:279-282). *)
  Fixpoint eval (d : dict) (e : expr) : option K :=
    let two f a b := match eval d a, eval d b with Some x, Some y => Some (f x y) | _, _ => None end in
    match e with
    | EConst c => Some c
    | EVar x => dget d x
    | EAdd a b => two nadd a b
    | ESub a b => two nsub a b
    | EMul a b => two nmul a b
    | EPow a n => match eval d a with Some x => Some (npow x n) | None => None end
    end.

  (** [expr.free_symbols], as a list without repetition. *)
  Fixpoint symbols (e : expr) : list string :=
    match e with
    | EConst _ => []
    | EVar x => [x]
    | EAdd a b | ESub a b | EMul a b => symbols a ++ symbols b
    | EPow a _ => symbols a
    end.
  Definition free_symbols (e : expr) : list string := dedup String.eqb (symbols e).

  (** [==] of expressions is structural. *)
  Fixpoint expr_eqb (a b : expr) : bool :=
    match a, b with
    | EConst x, EConst y => x =? y
    | EVar x, EVar y => String.eqb x y
    | EAdd a1 a2, EAdd b1 b2 | ESub a1 a2, ESub b1 b2 | EMul a1 a2, EMul b1 b2 => expr_eqb a1 b1 && expr_eqb a2 b2
    | EPow a1 n, EPow b1 k => expr_eqb a1 b1 && (n =? k)%nat
    | _, _ => false
    end.
End Expr.
Arguments expr K : clear implicits.
Arguments dict K : clear implicits.

Section Pctmc.
  Context {K : Type} `{Num K}.

  (** jajapy/base/Parametric_Model.py:14-83, pctmc/PCTMC.py:13-56: the attributes
      matrix, labelling, transition_expr, parameter_values, parameter_indexes,
      parameter_str, initial_state and name.  synchronous_transitions is in
      MCompose.v. *)
  Record pctmc := mkPC { pc_mat : list (list nat); pc_lab : list string; pc_expr : list (expr K);
    pc_val : dict K; pc_ind : list (list (Z * Z)); pc_par : list string; pc_ini : list K; pc_name : string }.
  Definition pc_n (m : pctmc) : nat := length (pc_mat m).

  (** jajapy/base/Parametric_Model.py:49-83.  [None] is nan: such values are
      removed from the dict given by the user.  [max([])] raises ValueError. *)
  Definition zmax (l : list Z) : res Z := match l with [] => Err ValueError | x :: l' => Ok (fold_left Z.max l' x) end.
  Definition zmin (l : list Z) : res Z := match l with [] => Err ValueError | x :: l' => Ok (fold_left Z.min l' x) end.
  Definition drop_nan (d : list (string * option K)) : dict K :=
    flat_map (fun p => match snd p with Some v => [(fst p, v)] | None => [] end) d.
  Definition PCTMC_new (matrix : list (list Z)) (labels : list string) (exprs : list (expr K)) (values : list (string * option K))
      (indexes : list (list (Z * Z))) (params : list string) (name : string) : res pctmc :=
    if negb (memb String.eqb "init"%string labels) then Err ValueError
    else if negb (length indexes =? length params)%nat then Err ValueError
    else
      do mx <- zmax (concat matrix);
      if (Z.of_nat (length exprs) <=? mx)%Z then Err ValueError
      else
        do mn <- zmin (concat matrix);
        if (mn <? 0)%Z then Err ValueError
        else if negb (length labels =? length matrix)%nat then Err ValueError
        else
          let p := n1 / nofZ (Z.of_nat (countb String.eqb "init"%string labels)) in
          do ini <- model_init (length matrix) (IniList (map (fun l => if String.eqb l "init" then p else n0) labels));
          Ok (mkPC (map (map Z.to_nat) matrix) labels exprs (drop_nan values) indexes params ini name).

  (** jajapy/base/Parametric_Model.py:149-165 [transitionExpression], ids in
      range *)
  Definition transitionExpression (m : pctmc) (i j : nat) : expr K := nth (nth j (nth i (pc_mat m) []) O) (pc_expr m) (EConst n0).
  (** 251-284 [evaluateTransition] *)
  Definition evaluateTransition (m : pctmc) (i j : nat) (values : option (dict K)) : option K :=
    eval (match values with None => pc_val m | Some d => d end) (transitionExpression m i j).

  (** 286-313 [involvedParameters]; [None]: all the transitions leaving [i]. *)
  Definition involvedParameters (m : pctmc) (i : nat) (j : option nat) : list string :=
    dedup String.eqb (flat_map (fun jj => symbols (transitionExpression m i jj))
                               match j with None => seq 0 (pc_n m) | Some j => [j] end).

  (** 85-124 [isInstantiated]: of a parameter, of the model, of a state or a
      transition ([_checkStateIndex] raises IndexError out of range). *)
  Definition inst_param (m : pctmc) (p : string) : bool := match dget (pc_val m) p with Some _ => true | None => false end.
  Definition inst_model (m : pctmc) : bool := forallb (inst_param m) (pc_par m).
  Definition inst_state (m : pctmc) (i : nat) (j : option nat) : res bool :=
    if (i <? pc_n m)%nat then Ok (forallb (inst_param m) (involvedParameters m i j)) else Err IndexError.

  (** 167-186 [parameterValue] ([None] is nan), 188-214 [parameterIndexes] *)
  Definition parameterValue (m : pctmc) (p : string) : option K := dget (pc_val m) p.
  Definition parameterIndexes (m : pctmc) (p : string) : list (Z * Z) :=
    match index_of String.eqb p (pc_par m) with None => [] | Some k => nth k (pc_ind m) [] end.

  (** jajapy/pctmc/PCTMC.py:172-181 [_checkRates].  The argument [values] is not
      passed to evaluateTransition. *)
  Definition checkRates (m : pctmc) (values : dict K) : bool :=
    forallb (fun i => forallb (fun j =>
        if (nth j (nth i (pc_mat m) []) O =? 0)%nat then true
        else match evaluateTransition m i j None with Some v => negb (v <? n0) | None => true end)
      (seq 0 (length (nth i (pc_mat m) [])))) (seq 0 (pc_n m)).

  (** jajapy/base/Parametric_Model.py:216-244: a copy of the dict, updated; zip
      stops at the shorter list. *)
  Definition new_values (d : dict K) (params : list string) (values : list K) : dict K :=
    fold_left (fun d sv => dset d (fst sv) (snd sv)) (combine params values) d.
  (** jajapy/pctmc/PCTMC.py:183-206 [instantiate] *)
  Definition instantiate (m : pctmc) (params : list string) (values : list K) : bool * pctmc :=
    let nv := new_values (pc_val m) params values in
    if checkRates m nv then (true, mkPC (pc_mat m) (pc_lab m) (pc_expr m) nv (pc_ind m) (pc_par m) (pc_ini m) (pc_name m))
    else (false, m).

  (** jajapy/pctmc/PCTMC.py:208-258 [randomInstantiation].  [rands k] is the
      k-th vector returned by numpy's rand; [attempts] bounds the number of
      rounds of the while loop, [None] means that it has not ended. *)
  Definition default_params (m : pctmc) : list string := filter (fun p => negb (inst_param m p)) (pc_par m).
  Definition kmin (x : K) (l : list K) : K := fold_left (fun a b => if b <? a then b else a) l x.
  Definition kmax (x : K) (l : list K) : K := fold_left (fun a b => if a <? b then b else a) l x.
  Definition bounds (m : pctmc) (min_val max_val : option K) : K * K :=
    let vs := map snd (pc_val m) in
    (match min_val, vs with Some x, _ => x | None, x :: y :: l => kmin x (y :: l) | None, _ => n1 / nofZ 100 end,
     match max_val, vs with Some x, _ => x | None, x :: y :: l => kmax x (y :: l) | None, _ => nofZ 3 / nofZ 10 end).
  Fixpoint random_loop (m : pctmc) (params : list string) (lo hi : K) (rands : nat -> list K) (k attempts : nat) : option pctmc :=
    match attempts with
    | O => None
    | S a => match instantiate m params (map (fun r => r * (hi - lo) + lo) (rands k)) with
             | (true, m') => Some m'
             | (false, m') => random_loop m' params lo hi rands (S k) a
             end
    end.
  Definition randomInstantiation (m : pctmc) (parameters : option (list string)) (min_val max_val : option K)
      (rands : nat -> list K) (attempts : nat) : option pctmc :=
    let ps := match parameters with None => default_params m | Some l => l end in
    let (lo, hi) := bounds m min_val max_val in
    random_loop m ps lo hi rands O attempts.

  (** A returned number, inf, or None (after a printed warning). *)
  Inductive num_or := Fin (x : K) | Inf | PyNone.

  (** jajapy/pctmc/PCTMC.py:58-72 [e].  When the state is instantiated every
      transition evaluates to a float. *)
  Definition pc_eval (m : pctmc) (i j : nat) : K := match evaluateTransition m i j None with Some v => v | None => n0 end.
  Definition pc_e (m : pctmc) (s : nat) : res K :=
    do b <- inst_state m s None;
    if b then Ok (nsum (map (pc_eval m s) (seq 0 (pc_n m)))) else Err ValueError.
  (** 74-98 [l]: [None] is a symbolic result *)
  Definition pc_l (m : pctmc) (s1 s2 : nat) (o : string) : res (option K) :=
    if (s1 <? pc_n m)%nat && (s2 <? pc_n m)%nat then
      do lb <- at_list (pc_lab m) s1;
      Ok (if String.eqb lb o then evaluateTransition m s1 s2 None else Some n0)
    else Err IndexError.
  (** 122-148 [tau] *)
  Definition pc_tau (m : pctmc) (s1 s2 : nat) (o : string) : res num_or :=
    match pc_e m s1 with
    | Err ValueError => Ok PyNone
    | Err x => Err x
    | Ok e => if e =? n0 then Ok Inf
              else do l <- pc_l m s1 s2 o;
                   match l with Some x => Ok (Fin (x / e)) | None => Err TypeError end
    end.
  (** 150-170 [expected_time] *)
  Definition pc_expected_time (m : pctmc) (s : nat) : res num_or :=
    match pc_e m s with
    | Err ValueError => Ok PyNone
    | Err x => Err x
    | Ok e => if e =? n0 then Ok Inf else Ok (Fin (n1 / e))
    end.
  (** 100-120 [lkl] *)
  Definition pc_lkl `{Trans K} (m : pctmc) (s : nat) (t : K) : res num_or :=
    if t <? n0 then Ok (Fin n0)
    else match pc_e m s with
         | Err ValueError => Ok PyNone
         | Err x => Err x
         | Ok e => Ok (Fin (e * nexp (n0 - e * t)))
         end.

  (** jajapy/pctmc/PCTMC.py:272-292 [next].  [None] is inf.  [sample j] is the
      value of numpy's exponential for the transition to j; a negative scale
      raises ValueError. *)
  Definition pc_exps (rates : list K) (sample : nat -> K) : res (list (option K)) :=
    mmap (fun jr => let '(j, r) := jr in
            if r =? n0 then Ok None else if n1 / r <? n0 then Err ValueError else Ok (Some (sample j)))
         (combine (seq 0 (length rates)) rates).
  Definition olt (x y : option K) : bool := match x, y with Some a, Some b => a <? b | Some _, None => true | None, _ => false end.
  Definition oeqb (x y : option K) : bool := match x, y with Some a, Some b => a =? b | None, None => true | _, _ => false end.
  Definition omin (x : option K) (l : list (option K)) : option K := fold_left (fun a b => if olt b a then b else a) l x.
  Definition pc_next (m : pctmc) (state : nat) (sample : nat -> K) : res (string * nat * option K) :=
    do b <- inst_state m state None;
    if negb b then Err ValueError
    else
      do exps <- pc_exps (map (pc_eval m state) (seq 0 (pc_n m))) sample;
      match exps with
      | [] => Err ValueError
      | x :: l =>
        let t := omin x l in
        match index_of oeqb t (x :: l) with
        | None => Err ValueError
        | Some s' => do o <- at_list (pc_lab m) state; Ok (o, s', t)
        end
      end.
  (** 294-324 [run]: labels and dwell times, and the last label *)
  Fixpoint pc_run_from (m : pctmc) (steps current : nat) (samples : nat -> nat -> K) (i : nat) : res (list (string * option K) * string) :=
    match steps with
    | O => do l <- at_list (pc_lab m) current; Ok ([], l)
    | S k =>
      do x <- pc_next m current (samples i);
      let '(o, s', t) := x in
      do rest <- pc_run_from m k s' samples (S i);
      Ok ((o, t) :: fst rest, snd rest)
    end.
  Definition pc_run (m : pctmc) (number_steps : Z) (r0 : K) (samples : nat -> nat -> K) : res (list (string * option K) * string) :=
    do c <- resolveRandom (pc_ini m) r0;
    pc_run_from m (Z.to_nat number_steps) c samples O.

  (** jajapy/pctmc/PCTMC.py:326-339 [_computeAlphas_timed]: log raises ValueError
      on 0 (and on negative numbers). *)
  Definition pc_w (m : pctmc) (ot : string * K) `{Trans K} : nat -> nat -> K :=
    fun ss s => (if String.eqb (lab (pc_lab m) ss) (fst ot) then pc_eval m ss s else n0) *
                nexp (n0 - nsum (map (pc_eval m ss) (seq 0 (pc_n m))) * snd ot).
  Definition pc_computeAlphas_timed `{Trans K} (m : pctmc) (tr : timed) (times : Z) : res K :=
    let (obs, ts) := tr in
    match rev obs with
    | [] => Err IndexError
    | lst :: butlast =>
      if (length ts <? length butlast)%nat then Err IndexError
      else
        let prev := fold_left (fun prev ot => fstep (pc_n m) prev (pc_w m ot)) (combine (rev butlast) ts) (pc_ini m) in
        let p := nsum (zipwith nmul prev (lab_mask (pc_n m) (pc_lab m) lst)) in
        if p <=? n0 then Err ValueError else Ok (nln p * nofZ times)
    end.
  (** 341-367 [logLikelihood], timed traces: results equal to False (0.0 included)
      are dropped, then the sum is divided.  Both platforms give the same sum.
      The total weight of an empty set is the int 0: ZeroDivisionError. *)
  Definition pc_logLikelihood_timed `{Trans K} (m : pctmc) (s : list (timed * Z)) : res K :=
    if negb (inst_model m) then Err ValueError
    else do temp <- mmap (fun st => pc_computeAlphas_timed m (fst st) (snd st)) s;
         let total := zsum (map snd s) in
         if (total =? 0)%Z then Err ZeroDivisionError else Ok (nsum temp / nofZ total).
End Pctmc.
Arguments pctmc K : clear implicits.
Arguments num_or K : clear implicits.

Section Create.
  Context {K : Type} `{Num K}.
  (** numpy's [matrix[i,j] = x] *)
  Definition np_set {A} (m : list (list A)) (i j : Z) (x : A) : res (list (list A)) :=
    do r <- pyget m i; do r' <- pyset r j x; pyset m i r'.
  (** [expr.is_real]: true for numbers.  Parameters have no assumption. *)
  Definition is_number (e : expr K) : bool := match symbols e with [] => true | _ => false end.
  (** One transition of createPCTMC, pctmc/PCTMC.py:525-532: the expressions, the
      matrix (uint16: values wrap at 65536) and the indexes. *)
  Definition create_step (params : list string) (st : list (expr K) * list (list Z) * list (list (Z * Z))) (t : Z * Z * expr K)
    : res (list (expr K) * list (list Z) * list (list (Z * Z))) :=
    let '(exprs, mat, ind) := st in
    let '(i, j, e) := t in
    let exprs := if is_number e || negb (memb expr_eqb e exprs) then exprs ++ [e] else exprs in
    do k <- index_err expr_eqb e exprs;
    do mat <- np_set mat i j (Z.of_nat k mod 65536)%Z;
    do ind <- mfold (fun ind p => do q <- index_err String.eqb p params; Ok (upd ind q (nth q ind [] ++ [(i, j)]))) (free_symbols e) ind;
    Ok (exprs, mat, ind).
  (** jajapy/pctmc/PCTMC.py:461-546 [createPCTMC].  [sync]: sources and
      destinations of the synchronous transitions.  Also the lists given as
      labelling and transitions after the call. *)
  Definition createPCTMC (ts : list (Z * Z * expr K)) (labels params : list string) (i : @pyini K)
      (inst : dict K) (sync : list (Z * Z)) (name : string) : res (pctmc K) * (list string * list (Z * Z * expr K)) :=
    if memb String.eqb "init"%string labels then (Err SyntaxError, (labels, ts))
    else
      let labels' := labels ++ ["init"%string] in
      let states := sorted_set Z.eqb Z.leb (map (fun t => fst (fst t)) ts ++ map (fun t => snd (fst t)) ts ++ map fst sync ++ map snd sync) in
      let n := length states in
      let ts' := ts ++ match i with
                       | IniInt z => [(Z.of_nat n, z, EConst n1)]
                       | IniList l => zipwith (fun k p => (Z.of_nat n, Z.of_nat k, EConst p)) (seq 0 (length l)) l
                       end in
      (if (length labels' <? n + 1)%nat then Err ValueError
       else
         do st <- mfold (create_step params) ts' ([EConst n0], repeat (repeat 0%Z (n + 1)) (n + 1), map (fun _ => []) params);
         let '(exprs, mat, ind) := st in
         PCTMC_new mat labels' exprs (map (fun p => (fst p, Some (snd p))) (filter (fun p => memb String.eqb (fst p) params) inst)) ind params name,
       (labels', ts')).
End Create.
