(** Conversions between stormpy sparse models and jajapy models
    (with_stormpy/model_converter.py).

    stormpy is not modelled.  A sparse model is what the converters read through
    its interface: the labels of each state (a set, given as a list in the order
    in which it is iterated), for each state its actions, for each action its
    transitions (column, value) in the order of iteration, and the exit rates of
    a CTMC.  The id printed by an action is its position within its state.  The
    test on the type of the model (33-44, 158-171) is left out: there is one
    function per type, the other types raise TypeError. *)
From Coq Require Import String ZArith Bool DecimalString List.
From Verif Require Import Num Py MModels MCtor MPctmc.
Import ListNotations.
Local Open Scope num_scope.

Record sparse (V K : Type) := mkSparse {
  sp_labels : list (list string);
  sp_rows : list (list (list (nat * V)));
  sp_exit : list K }.
Arguments mkSparse {V K} _ _ _.
Arguments sp_labels {V K} _.
Arguments sp_rows {V K} _.
Arguments sp_exit {V K} _.

(** [l.remove(x)] when [x in l], else nothing *)
Fixpoint drop_first (x : string) (l : list string) : list string :=
  match l with [] => [] | y :: l' => if String.eqb x y then l' else y :: drop_first x l' end.

(** jajapy/with_stormpy/model_converter.py:69-81: the label of a state, and
    whether the label init has been taken off it. *)
Definition state_label (labels : list string) : string * bool :=
  let temp := isort_list String.leb (drop_first "deadlock" labels) in
  match temp with
  | [] => ("empty"%string, false)
  | _ => if memb String.eqb "init"%string temp && (1 <? length temp)%nat
         then (String.concat "_" (drop_first "init" temp), true)
         else (String.concat "_" temp, false)
  end.
(** 46, 67-81: one label per state, and one label init at the end for each time
    it has been taken off. *)
Definition labelling_of (ls : list (list string)) : list string :=
  let r := map state_label ls in
  map fst r ++ repeat "init"%string (length (filter snd r)).
(** 66, 79: [add_init_state] is the last state whose label init was taken off. *)
Definition add_init_of (ls : list (list string)) : option nat :=
  fold_left (fun acc (ir : nat * (string * bool)) => if snd (snd ir) then Some (fst ir) else acc) (combine (seq 0 (length ls)) (map state_label ls)) None.

(** [matrix[c][dest] = t_val] for the transitions of an action *)
Definition set_row {V} (row : list V) (ts : list (nat * V)) : res (list V) :=
  mfold (fun r t => pyset r (Z.of_nat (fst t)) (snd t)) ts row.

(** 'a'+str(i), or the name given by the user (51-54) *)
Definition nat_text (i : nat) : string := NilZero.string_of_uint (Nat.to_uint i).
Definition action_name (names : list string) (i : nat) : string :=
  match nth_error names i with Some x => x | None => String.append "a" (nat_text i) end.

Section Storm.
  Context {K : Type} `{Num K}.

  (** 58, 83-90: all the actions of a state write in the same row. *)
  Definition dense_row (n : nat) (acts : list (list (nat * K))) : res (list K) := mfold set_row acts (vzeros n).
  (** 120-122 *)
  Definition add_state (m : list (list K)) (o : option nat) : list (list K) :=
    match o with
    | None => m
    | Some c => map (fun r => r ++ [n0]) (m ++ [upd (vzeros (length m)) c n1])
    end.

  (** 46-131 for a SparseDtmc *)
  Definition stormpy_to_MC (h : sparse K K) : res (mc K) :=
    let n := length (sp_labels h) in
    do m <- mmap (dense_row n) (sp_rows h);
    MC_new (add_state m (add_init_of (sp_labels h))) (labelling_of (sp_labels h)) "unknown_MC".

  (** 46-133 for a SparseCtmc; 110-111: [matrix[c] *= h.exit_rates[si]] unless
      [from_prism]. *)
  Definition stormpy_to_CTMC (from_prism : bool) (h : sparse K K) : res (ctmc K) :=
    let n := length (sp_labels h) in
    do m <- mmap (fun ir => do r <- dense_row n (snd ir);
                            if from_prism then Ok r
                            else do e <- at_list (sp_exit h) (fst ir); Ok (map (fun x => x * e) r))
                 (combine (seq 0 n) (sp_rows h));
    CTMC_new (add_state m (add_init_of (sp_labels h))) (labelling_of (sp_labels h)) "unknown_CTMC".

  (** 47-56: the names of the actions of all states, then [list(set(actions))],
      whose order is arbitrary: [order] gives it. *)
  Definition all_names (names : list string) (rows : list (list (list (nat * K)))) : list string :=
    flat_map (fun acts => map (action_name names) (seq 0 (length acts))) rows.
  (** 83-88: [matrix[c][int(str(a))][dest] = t_val] *)
  Definition dense_mdp (k n : nat) (acts : list (list (nat * K))) : res (list (list K)) :=
    mfold (fun m ia => mfold (fun m t => np_set m (Z.of_nat (fst ia)) (Z.of_nat (fst t)) (snd t)) (snd ia) m)
          (combine (seq 0 (length acts)) acts) (repeat (vzeros n) k).
  (** 116-118: in the extra state every action leads to the former initial state *)
  Definition add_state_mdp (k : nat) (m : list (list (list K))) (o : option nat) : list (list (list K)) :=
    match o with
    | None => m
    | Some c => map (map (fun r => r ++ [n0])) (m ++ [repeat (upd (vzeros (length m)) c n1) k])
    end.
  Definition stormpy_to_MDP (order : list string -> list string) (names : list string) (h : sparse K K) : res (mdp K) :=
    let n := length (sp_labels h) in
    let actions := order (all_names names (sp_rows h)) in
    let k := length actions in
    do m <- mmap (dense_mdp k n) (sp_rows h);
    MDP_new (add_state_mdp k m (add_init_of (sp_labels h))) (labelling_of (sp_labels h)) actions "unknown_MDP".

  (** 60-64, 91-109 for a SparseParametricCtmc.  The state of the loop: matrix,
      t_expr, p_str, p_i.  [gather e] lists the variables of [e] in the order of
      gather_variables().  The matrix is of type uint16: values wrap at 65536. *)
  Definition pstate := (list (list Z) * list (expr K) * list string * list (list (Z * Z)))%type.
  Definition note_param (c dest : nat) (st : list string * list (list (Z * Z))) (v : string) : res (list string * list (list (Z * Z))) :=
    let '(ps, pi) := st in
    let '(ps, pi) := if memb String.eqb v ps then (ps, pi) else (ps ++ [v], pi ++ [[]]) in
    do q <- index_err String.eqb v ps;
    do l <- at_list pi q;
    Ok (ps, upd pi q (l ++ [(Z.of_nat c, Z.of_nat dest)])).
  Definition param_step (gather : expr K -> list string) (c : nat) (st : pstate) (t : nat * expr K) : res pstate :=
    let '(m, ex, ps, pi) := st in
    let '(dest, e) := t in
    do pp <- mfold (note_param c dest) (gather e) (ps, pi);
    let '(ps, pi) := pp in
    if is_number e || negb (memb expr_eqb e ex) then
      do m <- np_set m (Z.of_nat c) (Z.of_nat dest) (Z.of_nat (length ex) mod 65536)%Z;
      Ok (m, ex ++ [e], ps, pi)
    else
      do q <- index_err expr_eqb e ex;
      do m <- np_set m (Z.of_nat c) (Z.of_nat dest) (Z.of_nat q mod 65536)%Z;
      Ok (m, ex, ps, pi).
  (** 124-128, 139.  [p_v] maps every parameter to nan. *)
  Definition stormpy_to_PCTMC (gather : expr K -> list string) (h : sparse (expr K) K) : res (pctmc K) :=
    let n := length (sp_labels h) in
    do st <- mfold (fun st ir => mfold (fun st acts => mfold (param_step gather (fst ir)) acts st) (snd ir) st)
                   (combine (seq 0 n) (sp_rows h)) (repeat (repeat 0%Z n) n, [EConst n0], [], []);
    let '(m, ex, ps, pi) := st in
    let '(m, ex) := match add_init_of (sp_labels h) with
                    | None => (m, ex)
                    | Some c => (map (fun r => r ++ [0%Z]) (m ++ [upd (repeat 0%Z n) c (Z.of_nat (length ex) mod 65536)%Z]), ex ++ [EConst n1])
                    end in
    PCTMC_new m (labelling_of (sp_labels h)) ex (map (fun p => (p, None)) ps) pi ps "unknow_PCTMC".

  (** ** From jajapy to stormpy *)

  (** stormpy's build_sparse_matrix of one row of an array: one transition per
      column; [zeros] tells whether the null entries are kept. *)
  Definition sparse_row (zeros : bool) (r : list K) : list (nat * K) :=
    filter (fun t => zeros || negb (snd t =? n0)) (combine (seq 0 (length r)) r).
  (** 173-179: each state has its label and no other *)
  Definition state_labelling (labels : list string) : list (list string) := map (fun l => [l]) labels.

  (** 215-236 *)
  Definition MCtoStormpy (zeros : bool) (m : mc K) : sparse K K :=
    mkSparse (state_labelling (mc_lab m)) (map (fun r => [sparse_row zeros r]) (mc_mat m)) [].
  (** 238-263: the matrix holds the rates divided by the exit rate of the state
      (numpy's division by 0 gives nan: not modelled). *)
  Definition CTMCtoStormpy (zeros : bool) (m : ctmc K) : sparse K K :=
    mkSparse (state_labelling (ct_lab m))
             (map (fun s => [sparse_row zeros (map (fun x => x / ct_e m s) (nth s (ct_mat m) []))]) (seq 0 (ct_n m)))
             (map (ct_e m) (seq 0 (ct_n m))).
  (** 181-213: row [s*nb_actions + a] of the reshaped matrix is the a-th choice of
      state s.  The reward model is not modelled. *)
  Definition MDPtoStormpy (zeros : bool) (m : mdp K) : sparse K K :=
    mkSparse (state_labelling (mdp_lab m)) (map (map (sparse_row zeros)) (mdp_mat m)) [].
  (** 201-204: the label of each choice, in the order of the rows *)
  Definition choice_labels (m : mdp K) : list (list string) :=
    let k := length (mdp_act m) in
    map (fun c => if (c <? k)%nat then [nth c (mdp_act m) EmptyString] else []) (seq 0 (mdp_n m * k)).

  (** 265-290.  [res[s,ss] = h.transitionValue(s,ss)]: a symbolic value cannot be
      stored in an array of floats (TypeError). *)
  Definition PCTMCtoCTMC (m : pctmc K) : res (ctmc K) :=
    if negb (inst_model m) then Err ValueError
    else
      do mat <- mmap (fun s => mmap (fun s' => match evaluateTransition m s s' None with Some v => Ok v | None => Err TypeError end)
                                    (seq 0 (pc_n m))) (seq 0 (pc_n m));
      CTMC_new mat (pc_lab m) (pc_name m).
  (** 164-169 *)
  Definition PCTMCtoStormpy (zeros : bool) (m : pctmc K) : res (sparse K K) :=
    do c <- PCTMCtoCTMC m; Ok (CTMCtoStormpy zeros c).
End Storm.
