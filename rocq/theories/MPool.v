(** The worker pool of the Python standard library as used by jajapy, and the
    code around it that depends on the number of processes and CPUs. *)
From Coq Require Import List ZArith Bool.
From Verif Require Import Num Py MSet MModels MLik MBW.
Import ListNotations.

(** [p.apply_async(f, args)] for every task, then [[res.get() for res in tasks]]:
    jajapy/base/BW.py:1641-1647 and base/Model.py:339-344 (and mdp/MDP.py:408-412,
    ctmc/CTMC.py:249-255).  A task is computed by a worker on a copy of the model;
    the model is not changed before the results are collected, so a task is a
    function of its arguments.  An exception of the worker is re-raised by get(). *)
Section Pool.
  Context {X A : Type} (work : X -> res A) (procs : nat) (tasks : list X).

  (** [submitted]: number of calls to apply_async made so far.  [taken]: tasks taken
      from the queue by a worker.  [running]: tasks being computed.  [slots]: the
      AsyncResult objects.  [got]: results collected so far by the main process.
      [raised]: exception re-raised in the main process. *)
  Record pool := mkPool { submitted : nat; taken : nat; running : list nat;
                          slots : list (option (res A)); got : list A; raised : option exn }.

  Definition pool_init : pool := mkPool 0 0 [] (repeat None (length tasks)) [] None.

  (** One step of any process. *)
  Inductive pstep : pool -> pool -> Prop :=
  | p_submit sub tk run sl gt :
      sub < length tasks ->
      pstep (mkPool sub tk run sl gt None) (mkPool (S sub) tk run sl gt None)
  | p_start sub tk run sl gt ex :
      tk < sub -> length run < procs ->
      pstep (mkPool sub tk run sl gt ex) (mkPool sub (S tk) (tk :: run) sl gt ex)
  | p_finish sub tk run1 i run2 sl gt ex x :
      nth_error tasks i = Some x ->
      pstep (mkPool sub tk (run1 ++ i :: run2) sl gt ex)
            (mkPool sub tk (run1 ++ run2) (upd sl i (Some (work x))) gt ex)
  | p_get sub tk run sl gt a :
      sub = length tasks -> nth_error sl (length gt) = Some (Some (Ok a)) ->
      pstep (mkPool sub tk run sl gt None) (mkPool sub tk run sl (gt ++ [a]) None)
  | p_raise sub tk run sl gt e :
      sub = length tasks -> nth_error sl (length gt) = Some (Some (Err e)) ->
      pstep (mkPool sub tk run sl gt None) (mkPool sub tk run sl gt (Some e)).

  Inductive psteps : nat -> pool -> pool -> Prop :=
  | ps_refl st : psteps 0 st st
  | ps_step k a b c : psteps k a b -> pstep b c -> psteps (S k) a c.

  (** What the main process obtained, if it is done. *)
  Definition outcome (st : pool) : option (res (list A)) :=
    match raised st with
    | Some e => Some (Err e)
    | None => if (length (got st) =? length tasks) && (submitted st =? length tasks) then Some (Ok (got st)) else None
    end%nat.
End Pool.
Arguments pool : clear implicits.

(** One learning round through a pool: [self._update([r for r in results if r != False])],
    jajapy/base/BW.py:294-296 with 1641-1647. *)
Definition not_None {T} (r : option T) : bool := match r with Some _ => true | None => false end.
Definition pool_round {K S T M} (work : M -> S -> Z -> option T) (update : M -> list (option T) -> res (M * K))
    (procs : nat) (set : list (S * Z)) (m : M) (r : res (M * K)) : Prop :=
  exists k st l,
    psteps (fun x => Ok (work m (fst x) (snd x))) procs set k (pool_init set) st /\
    outcome set st = Some (Ok l) /\ r = update m (filter not_None l).

(** jajapy/base/BW.py:291-309, with each round computed through a pool. *)
Inductive pool_run {K S T M} `{Num K} (work : M -> S -> Z -> option T) (update : M -> list (option T) -> res (M * K))
    (procs : nat) (set : list (S * Z)) (epsilon : K) : nat -> option K -> nat -> M -> res (M * nat * option K * bool) -> Prop :=
| pr_max prev c m : pool_run work update procs set epsilon 0 prev c m (Ok (m, c, prev, false))
| pr_err fuel prev c m e : pool_round work update procs set m (Err e) ->
    pool_run work update procs set epsilon (Datatypes.S fuel) prev c m (Err e)
| pr_stop fuel p c m m' ll : pool_round work update procs set m (Ok (m', ll)) -> ((ll - p)%num <? epsilon)%num = true ->
    pool_run work update procs set epsilon (Datatypes.S fuel) (Some p) c m (Ok (m', Datatypes.S c, Some ll, true))
| pr_more fuel prev c m m' ll r : pool_round work update procs set m (Ok (m', ll)) ->
    match prev with None => True | Some p => ((ll - p)%num <? epsilon)%num = false end ->
    pool_run work update procs set epsilon fuel (Some ll) (Datatypes.S c) m' r ->
    pool_run work update procs set epsilon (Datatypes.S fuel) prev c m r.

(** ** Number of processes *)

(** [Pool(processes=n)] raises ValueError when n < 1. *)
Definition Pool_new (n : Z) : res unit := if (n <? 1)%Z then Err ValueError else Ok tt.

(** jajapy/base/Model.py:235-238 [logLikelihood] with 340: on Linux the
    multi-process version is used with one CPU left free, on Windows and macOS
    the single-process version.  [multi] and [one] are the values computed by the
    two versions (MLik.v). *)
Definition logLikelihood_on {A} (linux : bool) (cpus : Z) (multi one : res A) : res A :=
  if linux then do _ <- Pool_new (cpus - 1); multi else one.

(** jajapy/base/BW.py:143-152: the value of self.processes. [arg] is None when the
    argument is not an int. *)
Definition fit_processes (linux : bool) (cpus : Z) (arg : option Z) : Z :=
  if linux then
    match arg with
    | None => (cpus - 1)%Z
    | Some p => if (p >? cpus)%Z || (p <? 1)%Z then (cpus - 1)%Z else p
    end
  else 1%Z.

(** jajapy/base/BW.py:1642-1649: a pool is created only when self.processes > 1. *)
Definition fit_pool (processes : Z) : res unit := if (processes >? 1)%Z then Pool_new processes else Ok tt.

(** jajapy/base/BW.py:320-322: with return_data, the information returned next to
    the model: number of rounds and the last value of currentloglikelihood, which
    is unbound when no round was made. *)
Definition fit_info {K M} (r : res (M * nat * option K * bool)) : res (M * nat * K) :=
  do x <- r;
  let '(m, c, ll, _) := x in
  match ll with Some v => Ok (m, c, v) | None => Err UnboundLocalError end.
