(** IOAlergia: jajapy/mdp/IOAlergia.py.  The states of the tree are Python objects
    in a list; they are referred to by their positions. *)
From Coq Require Import String ZArith Bool List.
From Verif Require Import Num Py MTools MSet MModels MCtor MAlergia.
Import ListNotations.
Local Open Scope num_scope.

(** jajapy/mdp/IOAlergia.py:8-28 [IOFPTA_state].  [transitions] is a dict from
    actions to a pair of parallel lists (frequencies, destinations): here an
    association list in insertion order, with one list of pairs
    (destination, frequency) per action. *)
Definition iotrans := list (string * list (nat * Z)).
Record iost := mkIO { io_obs : string; io_cnt : Z; io_lbl : list string; io_tr : iotrans }.
Definition ioheap := list iost.
Definition no_io : iost := mkIO EmptyString 0 [] [].
Definition io (h : ioheap) (s : nat) : iost := nth s h no_io.
Definition obs (h : ioheap) (s : nat) : string := io_obs (io h s).
Definition trans (h : ioheap) (s : nat) : iotrans := io_tr (io h s).
Definition set_trans (h : ioheap) (s : nat) (t : iotrans) : ioheap :=
  upd h s (mkIO (io_obs (io h s)) (io_cnt (io h s)) (io_lbl (io h s)) t).
Definition set_counter (h : ioheap) (s : nat) (c : Z) : ioheap :=
  upd h s (mkIO (io_obs (io h s)) c (io_lbl (io h s)) (io_tr (io h s))).

(** [transitions[action]]; [[]] when the action is not a key. *)
Fixpoint tr_get (t : iotrans) (a : string) : list (nat * Z) :=
  match t with [] => [] | (b, e) :: t' => if String.eqb a b then e else tr_get t' a end.
(** 136-150 [actionAllowed] *)
Definition actionAllowed (h : ioheap) (s : nat) (a : string) : bool := memb String.eqb a (map fst (trans h s)).
(** 152-161 [actionsAllowed] *)
Definition actionsAllowed (h : ioheap) (s : nat) : list string := map fst (trans h s).
Definition edges (h : ioheap) (s : nat) (a : string) : list (nat * Z) := tr_get (trans h s) a.
(** 68-80 [successorsAction] *)
Definition successorsAction (h : ioheap) (s : nat) (a : string) : list nat := map fst (edges h s a).

(** 51-66 [successors]: without repetition, sorted. *)
Definition dests (t : iotrans) : list nat := flat_map (fun ae => map fst (snd ae)) t.
Definition successors (h : ioheap) (s : nat) : list nat := isort_list Nat.leb (dedup Nat.eqb (dests (trans h s))).

(** 83-100 [transitionsAdd] *)
Fixpoint tr_add (t : iotrans) (a : string) (p : Z) (d : nat) : iotrans :=
  match t with
  | [] => [(a, [(d, p)])]
  | (b, e) :: t' => if String.eqb a b then (b, e ++ [(d, p)]) :: t' else (b, e) :: tr_add t' a p d
  end.
Definition transitionsAdd (h : ioheap) (s : nat) (a : string) (p : Z) (d : nat) : ioheap :=
  set_trans h s (tr_add (trans h s) a p d).

(** 102-115 [transitionChange]: the first transition to [old].  The KeyError and
    the ValueError of [index] are not modelled: [merge] calls it once for each
    transition to [old]. *)
Fixpoint change_first (e : list (nat * Z)) (old new : nat) : list (nat * Z) :=
  match e with
  | [] => []
  | (d, p) :: e' => if (d =? old)%nat then (new, p) :: e' else (d, p) :: change_first e' old new
  end.
Fixpoint tr_change (t : iotrans) (a : string) (old new : nat) : iotrans :=
  match t with
  | [] => []
  | (b, e) :: t' => if String.eqb a b then (b, change_first e old new) :: t' else (b, e) :: tr_change t' a old new
  end.
Definition transitionChange (h : ioheap) (s : nat) (a : string) (old new : nat) : ioheap :=
  set_trans h s (tr_change (trans h s) a old new).

(** 117-134 [getTransitionProb]: the frequency of the first transition to [s2]. *)
Fixpoint freq_to (e : list (nat * Z)) (s2 : nat) : Z :=
  match e with [] => 0%Z | (d, p) :: e' => if (d =? s2)%nat then p else freq_to e' s2 end.
Definition getTransitionProb (h : ioheap) (s : nat) (a : string) (s2 : nat) : Z := freq_to (edges h s a) s2.

(** 200-224 [successor] *)
Fixpoint first_obs (h : ioheap) (l : list nat) (o : string) : option nat :=
  match l with [] => None | i :: l' => if String.eqb (obs h i) o then Some i else first_obs h l' o end.
Definition successor (h : ioheap) (s : nat) (a o : string) : option nat := first_obs h (successorsAction h s a) o.

(** 298-319 [findPredec] *)
Definition findPredec (h : ioheap) (s : nat) : list (nat * string) :=
  flat_map (fun i => flat_map (fun a => flat_map (fun j => if (j =? s)%nat then [(i, a)] else []) (successorsAction h i a))
                              (actionsAllowed h i))
           (seq 0 (length h)).

(** 336-341: the transitions to s2 now lead to s1; the counters. *)
Definition redirect (h : ioheap) (s1 s2 : nat) : ioheap :=
  fold_left (fun h sa => transitionChange h (fst sa) (snd sa) s2 s1) (findPredec h s2) h.
Definition move_counter (h : ioheap) (s1 s2 : nat) : ioheap :=
  set_counter (set_counter h s1 (io_cnt (io h s1) + io_cnt (io h s2))%Z) s2 0%Z.

(** [for a in l1: for o in l2] *)
Definition all_pairs (l1 l2 : list string) : list (string * string) := flat_map (fun a => map (pair a) l2) l1.

(** 321-354 [merge] ([None]: out of fuel).  The frequency of the transition of s2
    is dropped when s1 already has a transition with this action and this
    observation (line 350 is a comment). *)
Fixpoint merge (fuel : nat) (obss : list string) (h : ioheap) (s1 s2 : nat) : option ioheap :=
  match fuel with
  | O => None
  | S fuel' =>
    let h2 := move_counter (redirect h s1 s2) s1 s2 in
    fold_left (fun (oh : option ioheap) (ao : string * string) =>
      match oh with
      | None => None
      | Some h =>
        match successor h s2 (fst ao) (snd ao) with
        | None => Some h
        | Some succ2 =>
          match successor h s1 (fst ao) (snd ao) with
          | Some succ1 => merge fuel' obss h succ1 succ2
          | None => Some (transitionsAdd h s1 (fst ao) (getTransitionProb h s2 (fst ao) succ2) succ2)
          end
        end
      end) (all_pairs (actionsAllowed h2 s2) obss) (Some h2)
  end.

(** ** The tree *)

(** 446-452: the prefixes ending with an observation, in order of appearance, with
    their counters. *)
Fixpoint count_in (eqb : list string -> list string -> bool) (w : list string) (n : Z) (l : list (list string * Z)) : list (list string * Z) :=
  match l with
  | [] => [(w, n)]
  | (v, c) :: l' => if eqb w v then (v, (c + n)%Z) :: l' else (v, c) :: count_in eqb w n l'
  end.
Definition prefix_counts (eqb : list string -> list string -> bool) (T : list (list string * Z)) : list (list string * Z) :=
  fold_left (fun acc tm => fold_left (fun acc i => count_in eqb (firstn (i + 1) (fst tm)) (snd tm) acc)
                                     (range2 (length (fst tm))) acc) T [].

(** 454-459: the states in the order of their labels, which are all different. *)
Definition label_sort (leb : list string -> list string -> bool) (l : list (list string * Z)) : list (list string * Z) :=
  isort_list (fun x y => leb (fst x) (fst y)) l.

(** 463-479: the transitions of the state number [s1]: the later states whose label
    has two elements more. *)
Definition drop2 (l : list string) : list string := firstn (length l - 2) l.
Definition tree_trans (eqb : list string -> list string -> bool) (ls : list (list string * Z)) (s1 : nat) : iotrans :=
  fold_left (fun t s2 =>
    let l1 := fst (nth s1 ls ([], 0%Z)) in
    let l2 := fst (nth s2 ls ([], 0%Z)) in
    if ((length l2 =? length l1 + 2)%nat && eqb (drop2 l2) l1)%bool
    then tr_add t (nth (length l2 - 2) l2 EmptyString) (snd (nth s2 ls ([], 0%Z))) s2 else t)
    (seq (s1 + 1) (length ls - (s1 + 1))) [].

(** 442-484 [_buildIOFPTA] *)
Definition buildIOFPTA (eqb leb : list string -> list string -> bool) (T : list (list string * Z)) : ioheap * list nat :=
  let ls := label_sort leb (prefix_counts eqb T) in
  (map (fun s => let l := nth s ls ([], 0%Z) in mkIO (last (fst l) EmptyString) (snd l) (fst l) (tree_trans eqb ls s))
       (seq 0 (length ls)),
   filter (fun s => (length (fst (nth s ls ([], 0%Z))) =? 1)%nat) (seq 0 (length ls))).

Section IOAlergia.
  Context {K : Type} `{Num K} `{Trans K}.

  (** 258-296 [hoeffding].  As for [hoeffdingBound], Python raises outside
      0 < epsilon <= 2; this is not modelled. *)
  Definition total (h : ioheap) (s : nat) (a : string) : Z := fold_right (fun dp acc => (snd dp + acc)%Z) 0%Z (edges h s a).
  Definition hoeffding (h : ioheap) (s1 s2 : nat) (a o : string) (epsilon : K) : bool :=
    match successor h s1 a o, successor h s2 a o with
    | Some i1, Some i2 =>
      let f1 : K := nofZ (getTransitionProb h s1 a i1) in
      let n_1 : K := nofZ (total h s1 a) in
      let f2 : K := nofZ (getTransitionProb h s2 a i2) in
      let n_2 : K := nofZ (total h s2 a) in
      if (total h s1 a * total h s2 a =? 0)%Z then true
      else nabs (f1 / n_1 - f2 / n_2) <? ((nsqrt (n1 / n_1) + nsqrt (n1 / n_2)) * nsqrt (nln (nofZ 2 / epsilon) / nofZ 2))
    | _, _ => true
    end.

  (** 226-256 [compatible] ([None]: out of fuel). *)
  Fixpoint io_compatible (fuel : nat) (acts obss : list string) (h : ioheap) (epsilon : K) (s1 s2 : option nat) : option bool :=
    match fuel with
    | O => None
    | S fuel' =>
      match s1, s2 with
      | Some x, Some y =>
        if negb (String.eqb (obs h x) (obs h y)) then Some false
        else all_opt (map (fun ao => if negb (hoeffding h x y (fst ao) (snd ao) epsilon) then Some false
                                     else io_compatible fuel' acts obss h epsilon (successor h x (fst ao) (snd ao)) (successor h y (fst ao) (snd ao)))
                          (all_pairs acts obss))
      | _, _ => Some true
      end
    end.

  (** 525-529: the first red state compatible with the blue one. *)
  Fixpoint first_red (fuel : nat) (acts obss : list string) (h : ioheap) (epsilon : K) (b : nat) (red : list nat) : option (option nat) :=
    match red with
    | [] => Some None
    | r :: red' =>
      match io_compatible fuel acts obss h epsilon (Some r) (Some b) with
      | None => None
      | Some true => Some (Some r)
      | Some false => first_red fuel acts obss h epsilon b red'
      end
    end.

  (** 533-541: [blue] is [b :: rest]. *)
  Definition new_blue (h : ioheap) (red rest : list nat) : list nat :=
    isort_list Nat.leb (dedup Nat.eqb (rest ++ flat_map (fun r => filter (fun s => negb (memb Nat.eqb s red)) (successors h r)) red)).

  (** 521-541.  [self.t] and [self.a] are the same object: the compatibility test
      looks at the current automaton. *)
  Fixpoint io_loop (fuel : nat) (acts obss : list string) (epsilon : K) (h : ioheap) (red blue : list nat) : option (ioheap * list nat) :=
    match blue with
    | [] => Some (h, red)
    | b :: rest =>
      match fuel with
      | O => None
      | S fuel' =>
        match first_red fuel acts obss h epsilon b red with
        | None => None
        | Some (Some r) =>
          match merge fuel obss h r b with
          | None => None
          | Some h' => io_loop fuel' acts obss epsilon h' red (new_blue h' red rest)
          end
        | Some None => let red' := red ++ [b] in io_loop fuel' acts obss epsilon h red' (new_blue h red' rest)
        end
      end
    end.

  (** 389-415 [cleanMDP]: [ai] is the position of the action among the actions
      allowed in the state, not among all the actions.  [states.index(s2)] raises
      ValueError when s2 is not red. *)
  Definition clean_row (h : ioheap) (red : list nat) (s : nat) (a : string) : res (list K) :=
    mfold (fun row dp => do j <- index_err Nat.eqb (fst dp) red;
                         Ok (upd row j (nofZ (snd dp) / nofZ (total h s a))))
          (edges h s a) (vzeros (length red + 1)).
  Definition clean_state (h : ioheap) (red : list nat) (acts : list string) (s : nat) : res (list (list K)) :=
    do rows <- mmap (clean_row h red s) (filter (actionAllowed h s) acts);
    Ok (rows ++ repeat (vzeros (length red + 1)) (length acts - length rows)).
  (** The last state: [transitions[-1][0][0] = 1.0], an IndexError without actions. *)
  Definition clean_last (n : nat) (acts : list string) : res (list (list K)) :=
    match acts with
    | [] => Err IndexError
    | _ :: acts' => Ok (upd (vzeros n) 0 n1 :: repeat (vzeros n) (length acts'))
    end.
  Definition cleanMDP (h : ioheap) (red : list nat) (acts : list string) : res (mdp K) :=
    do m <- mmap (clean_state h red acts) red;
    do l <- clean_last (length red + 1) acts;
    MDP_new (m ++ [l]) (map (obs h) red ++ ["init"%string]) acts "unknown_MDP".

  (** 486-561 [fit] on a set of type 1, with stormpy_output=False.  427-440
      [_initialize] reads [sample.sequences[0]].  [prism] says that
      output_file_prism is given: then [self.h.savePrism] raises AttributeError,
      since [self.h] does not exist. *)
  Definition ioalergia_fit (eqb leb : list string -> list string -> bool) (fuel : nat) (s : tset (list string)) (epsilon : K)
      (prism : bool) : option (res (mdp K)) :=
    match actions_observations String.eqb (seqs s) with
    | Err e => Some (Err e)
    | Ok ao =>
      let acts := isort_list String.leb (fst ao) in
      let obss := isort_list String.leb (snd ao) in
      match seqs s with
      | [] => Some (Err IndexError)
      | _ :: _ =>
        let (h, initial) := buildIOFPTA eqb leb (combine (seqs s) (times s)) in
        match io_loop fuel acts obss epsilon h [O] (flat_map (successors h) initial) with
        | None => None
        | Some (h', red) =>
          match cleanMDP h' red acts with
          | Err e => Some (Err e)
          | Ok m => Some (if prism then Err AttributeError else Ok m)
          end
        end
      end
    end.
End IOAlergia.
