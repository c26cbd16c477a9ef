(** Specification vocabulary for the composition of CTMCs. *)
From Coq Require Import String ZArith Reals List.
From Verif Require Import Num Py MTools MModels SNum SPctmc MPctmc.
Import ListNotations.
Local Open Scope R_scope.

(** A component: n states with labels l, then one state labelled 'init'; the
    rates leaving the latter are the initial probabilities. *)
Definition component (n : nat) (l : list string) (m : ctmc R) : Prop :=
  length l = n /\ ~ In "init"%string l /\ ct_lab m = l ++ ["init"%string] /\
  length (ct_mat m) = (n + 1)%nat /\ (forall r, In r (ct_mat m) -> length r = (n + 1)%nat) /\
  (forall s, (s < n)%nat -> 0 <= matR (ct_mat m) n s).

(** A synchronous transition (source, action, destination, rate) *)
Notation sync := (nat * string * nat * R)%type.
Definition s_src (t : sync) : nat := fst (fst (fst t)).
Definition s_act (t : sync) : string := snd (fst (fst t)).
Definition s_dst (t : sync) : nat := snd (fst t).
Definition s_rate (t : sync) : R := snd t.
Definition sync_in (n : nat) (l : list sync) : Prop := forall t, In t l -> (s_src t < n)%nat /\ (s_dst t < n)%nat.

(** The rate of the composition from the pair ab to the pair cd: the first
    component moves alone, or the second one, or both by transitions with the
    same action, whose rates multiply. *)
Definition sync_rate (ab cd : nat * nat) (t : sync * sync) : R :=
  if (String.eqb (s_act (fst t)) (s_act (snd t)) && Nat.eqb (s_src (fst t)) (fst ab) && Nat.eqb (s_src (snd t)) (snd ab) &&
      Nat.eqb (s_dst (fst t)) (fst cd) && Nat.eqb (s_dst (snd t)) (snd cd))%bool
  then s_rate (fst t) * s_rate (snd t) else 0.
Definition prod_rate (m1 m2 : ctmc R) (sync1 sync2 : list sync) (ab cd : nat * nat) : R :=
  (if Nat.eqb (snd ab) (snd cd) then matR (ct_mat m1) (fst ab) (fst cd) else 0) +
  (if Nat.eqb (fst ab) (fst cd) then matR (ct_mat m2) (snd ab) (snd cd) else 0) +
  sumL (list_prod sync1 sync2) (sync_rate ab cd).
(** The probability to start in the pair ab. *)
Definition prod_start (m1 m2 : ctmc R) (n1 n2 : nat) (ab : nat * nat) : R :=
  matR (ct_mat m1) n1 (fst ab) * matR (ct_mat m2) n2 (snd ab).
(** The pairs reachable in the composition. *)
Inductive reachable (m1 m2 : ctmc R) (n1 n2 : nat) (sync1 sync2 : list sync) : nat * nat -> Prop :=
| reach_start ab : (fst ab < n1)%nat -> (snd ab < n2)%nat -> prod_start m1 m2 n1 n2 ab <> 0 -> reachable m1 m2 n1 n2 sync1 sync2 ab
| reach_step ab cd : reachable m1 m2 n1 n2 sync1 sync2 ab -> (fst cd < n1)%nat -> (snd cd < n2)%nat ->
    prod_rate m1 m2 sync1 sync2 ab cd <> 0 -> reachable m1 m2 n1 n2 sync1 sync2 cd.

(** How many expressions the composition needs: non-zero rates, pairs of
    synchronous transitions with the same action, pairs of initial states. *)
Definition nonzeros (n : nat) (m : ctmc R) : nat :=
  length (filter (fun ij => negb (Reqb (matR (ct_mat m) (fst ij) (snd ij)) 0)) (list_prod (seq 0 n) (seq 0 n))).
Definition sync_pairs (sync1 sync2 : list sync) : nat :=
  length (filter (fun t => String.eqb (s_act (fst t)) (s_act (snd t))) (list_prod sync1 sync2)).
Definition start_pairs (m1 m2 : ctmc R) (n1 n2 : nat) : nat :=
  length (filter (fun ab => negb (Rleb (prod_start m1 m2 n1 n2 ab) 0)) (list_prod (seq 0 n1) (seq 0 n2))).
