(** The generators of random models.  [d k] is the array returned by the k-th
    call of numpy's randint(1,11,size) inside randomProbabilities; [ch k] the
    k-th index chosen by random.choices.  Sizes are natural numbers.  Seeding is
    not modelled: a seed fixes the draws. *)
From Coq Require Import String ZArith Bool List.
From Verif Require Import Num Py MTools MModels MCtor.
Import ListNotations.
Local Open Scope num_scope.

Section Random.
  Context {K : Type} `{Num K}.

  Definition rprobs (n : nat) (draws : list Z) : res (list K) := randomProbabilities (PyInt (Z.of_nat n)) draws.

  (** jajapy/base/Base_MC.py:145-165 [labelsForRandomModel]; [random.choices] on
      an empty list raises IndexError as soon as one element is asked for. *)
  Definition labelsForRandomModel (n : nat) (labels : list string) (ch : nat -> nat) : res (list string) :=
    if memb String.eqb "init"%string labels then Err SyntaxError
    else
      do extra <- mmap (fun k => at_list labels (ch k)) (seq 0 (n - length labels));
      Ok (firstn (Nat.min (length labels) n) labels ++ extra ++ ["init"%string]).

  (** The row of the initial state: mc/MC.py:270-273, mdp/MDP.py:526-529. *)
  Definition init_row (n : nat) (random_initial_state : bool) (draws : list Z) : res (list K) :=
    if random_initial_state then do p <- rprobs n draws; Ok (p ++ [n0])
    else Ok (n1 :: vzeros n).

  (** jajapy/mc/MC.py:229-279 [MC_random] *)
  Definition MC_random (n : nat) (labels : list string) (random_initial_state : bool)
      (d : nat -> list Z) (ch : nat -> nat) (name : string) : res (mc K) :=
    do rows <- mmap (fun i => do p <- rprobs n (d i); Ok (p ++ [n0])) (seq 0 n);
    do last <- init_row n random_initial_state (d n);
    do labels' <- labelsForRandomModel n labels ch;
    MC_new (rows ++ [last]) labels' name.

  (** jajapy/hmm/HMM.py:184-228 [HMM_random]: alternately a row of the matrix and
      a row of the outputs. *)
  Definition HMM_random (n : nat) (alphabet : list string) (random_initial_state : bool)
      (d : nat -> list Z) (name : string) : res (hmm K) :=
    do rows <- mmap (fun i => do p1 <- rprobs n (d (2 * i)%nat); do p2 <- rprobs (length alphabet) (d (2 * i + 1)%nat); Ok (p1, p2)) (seq 0 n);
    do ini <- if random_initial_state then do p <- rprobs n (d (2 * n)%nat); Ok (IniList p) else Ok (IniInt 0);
    HMM_new (map fst rows) (map snd rows) false alphabet ini name.

  (** jajapy/gohmm/GoHMM.py:221-276 [GoHMM_random]; [u s k] are the two values
      drawn by random.uniform for the k-th distribution of state s, rounded to 3
      decimals. *)
  Definition GoHMM_random (n nd : nat) (random_initial_state : bool)
      (d : nat -> list Z) (u : nat -> nat -> K * K) (name : string) : res (gohmm K) :=
    let r x := nofZ (round3 x) / nofZ 1000 in
    do rows <- mmap (fun i => rprobs n (d i)) (seq 0 n);
    do ini <- if random_initial_state then do p <- rprobs n (d n); Ok (IniList p) else Ok (IniInt 0);
    GoHMM_new rows (vbuild n (fun s => vbuild nd (fun k => (r (fst (u s k)), r (snd (u s k)))))) ini name.

  (** [insert(p,i,0.0)] *)
  Definition insert_at (i : nat) (p : list K) : list K := firstn i p ++ n0 :: skipn i p.

  (** jajapy/ctmc/CTMC.py:347-424 [CTMC_random]; [w i] is the value of
      randint(min,max), which raises ValueError on an empty range. *)
  Definition CTMC_random (n : nat) (labels : list string) (min_t max_t : Z) (self_loop random_initial_state : bool)
      (d : nat -> list Z) (w : nat -> Z) (ch : nat -> nat) (name : string) : res (ctmc K) :=
    do rows <- mmap (fun i =>
                 do p <- if self_loop then rprobs n (d i)
                         else do p <- randomProbabilities (PyInt (Z.of_nat n - 1)) (d i); Ok (insert_at i p);
                 if (max_t <? min_t)%Z then Err ValueError
                 else Ok (map (fun x => x / nofZ (w i)) p ++ [n0])) (seq 0 n);
    do last <- if random_initial_state then do p <- rprobs n (d n); Ok (p ++ [n0])
               else do p <- assign_row n (n1 :: vzeros (n - 1)); Ok (p ++ [n0]);
    do labels' <- labelsForRandomModel n labels ch;
    CTMC_new (rows ++ [last]) labels' name.

  (** jajapy/mdp/MDP.py:507-524: one state.  In the deterministic case
      [alphabet] is [list(set(labelling))] and [dest s a o] the id chosen among
      the states labelled with the o-th symbol. *)
  Definition mdp_random_row (n : nat) (nlab : nat) (deterministic : bool) (draws : list Z) (dest : nat -> nat) : res (list K) :=
    if deterministic then
      do probs <- rprobs nlab draws;
      do p <- mfold (fun p ij => pyset p (Z.of_nat (fst ij)) (snd ij)) (combine (map dest (seq 0 nlab)) probs) (vzeros n);
      Ok (p ++ [n0])
    else do p <- rprobs n draws; Ok (p ++ [n0]).

  (** jajapy/mdp/MDP.py:475-536 [MDP_random]; [actions] not empty.  [alphabet]:
      see above; [dest s a o] indexes [labels]. *)
  Definition MDP_random (n : nat) (labels actions alphabet : list string) (random_initial_state deterministic : bool)
      (d : nat -> nat -> list Z) (dest : nat -> nat -> nat -> nat) (ch : nat -> nat) (name : string) : res (mdp K) :=
    do rows <- mmap (fun s => mmap (fun a => mdp_random_row n (length alphabet) deterministic (d s a) (dest s a))
                                   (seq 0 (length actions))) (seq 0 n);
    do last <- init_row n random_initial_state (d n O);
    do labels' <- labelsForRandomModel n labels ch;
    MDP_new (rows ++ [repeat last (length actions)]) labels' actions name.
End Random.
