(** Specification vocabulary for the composition of parametric CTMCs. *)
From Coq Require Import String ZArith Reals List.
From Verif Require Import Num Py MTools MModels SNum SPctmc MPctmc SCompose.
Import ListNotations.
Local Open Scope R_scope.

(** A component: n states with labels l, then the state labelled 'init'; the
    rates leaving the latter have values; reference 0 is the expression 0; the
    parameters in use are declared. *)
Definition pcomponent (n : nat) (l : list string) (start : nat -> R) (m : pctmc R) : Prop :=
  length l = n /\ ~ In "init"%string l /\ pc_lab m = l ++ ["init"%string] /\
  nth O (pc_expr m) (EConst 0) = EConst 0 /\
  (forall s, (s < n)%nat -> has_rate m (current m) n s (start s)) /\
  (forall x y k, (x < n)%nat -> (y < n)%nat -> occurs k (transition m x y) -> In k (pc_par m)).

(** The rate of the composition from ab to cd when the parameters have the
    values rho. *)
Definition pprod (rho : string -> R) (m1 m2 : pctmc R) (sync1 sync2 : list sync) (ab cd : nat * nat) : R :=
  (if Nat.eqb (snd ab) (snd cd) then denote rho (transition m1 (fst ab) (fst cd)) else 0) +
  (if Nat.eqb (fst ab) (fst cd) then denote rho (transition m2 (snd ab) (snd cd)) else 0) +
  sumL (list_prod sync1 sync2) (sync_rate ab cd).
(** No synchronous transition of the pair goes where a transition with a parameter
    already is: this is only possible when one of the two models stays in its state. *)
Definition sync_plain (m1 m2 : pctmc R) (sync1 sync2 : list sync) : Prop :=
  forall t u k, In t sync1 -> In u sync2 -> s_act t = s_act u ->
    (s_src u = s_dst u -> ~ occurs k (transition m1 (s_src t) (s_dst t))) /\ (s_src t = s_dst t -> ~ occurs k (transition m2 (s_src u) (s_dst u))).
(** The pairs reachable for some values of the parameters. *)
Inductive preach (m1 m2 : pctmc R) (n1 n2 : nat) (start1 start2 : nat -> R) (sync1 sync2 : list sync) : nat * nat -> Prop :=
| preach_start ab : (fst ab < n1)%nat -> (snd ab < n2)%nat -> start1 (fst ab) * start2 (snd ab) <> 0 -> preach m1 m2 n1 n2 start1 start2 sync1 sync2 ab
| preach_step ab cd rho : preach m1 m2 n1 n2 start1 start2 sync1 sync2 ab -> (fst cd < n1)%nat -> (snd cd < n2)%nat ->
    pprod rho m1 m2 sync1 sync2 ab cd <> 0 -> preach m1 m2 n1 n2 start1 start2 sync1 sync2 cd.
