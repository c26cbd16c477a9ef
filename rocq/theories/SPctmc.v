(** Specification vocabulary for parametric CTMCs. *)
From Coq Require Import String ZArith Bool Reals List.
From Verif Require Import Num SNum MModels MPctmc.
Import ListNotations.
Local Open Scope R_scope.

(** The real function denoted by an expression. *)
Fixpoint denote (rho : string -> R) (e : expr R) : R :=
  match e with
  | EConst c => c
  | EVar x => rho x
  | EAdd a b => denote rho a + denote rho b
  | ESub a b => denote rho a - denote rho b
  | EMul a b => denote rho a * denote rho b
  | EPow a n => denote rho a ^ n
  end.
(** The parameters written in an expression. *)
Fixpoint occurs (x : string) (e : expr R) : Prop :=
  match e with
  | EConst _ => False
  | EVar y => x = y
  | EAdd a b | ESub a b | EMul a b => occurs x a \/ occurs x b
  | EPow a _ => occurs x a
  end.

(** [v] is the value of [e] when the parameters have the values [val] ([None]:
    no value): all its parameters have one, and [v] is what [e] denotes. *)
Definition has_value (val : string -> option R) (e : expr R) (v : R) : Prop :=
  exists rho, (forall x, occurs x e -> val x = Some (rho x)) /\ v = denote rho e.

(** The rate of the transition from i to j under given values. *)
Definition transition (m : pctmc R) (i j : nat) : expr R := nth (nth j (nth i (pc_mat m) []) O) (pc_expr m) (EConst 0).
Definition has_rate (m : pctmc R) (val : string -> option R) (i j : nat) (v : R) : Prop := has_value val (transition m i j) v.

(** Well-formed: square matrix of valid references, the first expression is 0,
    one label and one initial probability per state. *)
Definition wf_pctmc (m : pctmc R) : Prop :=
  (forall r, In r (pc_mat m) -> length r = pc_n m /\ forall k, In k r -> (k < length (pc_expr m))%nat) /\
  length (pc_lab m) = pc_n m /\ length (pc_ini m) = pc_n m /\ nth O (pc_expr m) (EConst 0) = EConst 0 /\ nonneg (pc_ini m).
(** No rate is negative. *)
Definition valid_rates (m : pctmc R) (val : string -> option R) : Prop :=
  forall i j v, (i < pc_n m)%nat -> (j < pc_n m)%nat -> has_rate m val i j v -> 0 <= v.

(** The current values. *)
Definition current (m : pctmc R) (x : string) : option R := parameterValue m x.
(** Values after giving [vs] to [ps] in this order. *)
Fixpoint given (ps : list string) (vs : list R) (old : string -> option R) : string -> option R :=
  match ps, vs with
  | p :: ps', v :: vs' => given ps' vs' (fun x => if String.eqb x p then Some v else old x)
  | _, _ => old
  end.

(** The CTMC obtained by evaluating every transition. *)
Definition realises (m : pctmc R) (c : ctmc R) : Prop :=
  ct_lab c = pc_lab m /\ ct_ini c = pc_ini m /\ ct_n c = pc_n m /\
  (forall r, In r (ct_mat c) -> length r = pc_n m) /\
  forall i j, (i < pc_n m)%nat -> (j < pc_n m)%nat -> has_rate m (current m) i j (matR (ct_mat c) i j).

(** [e] is the expression of the last tuple of [ts] from i to j; 0 if there is
    none. *)
Definition last_expr (ts : list (Z * Z * expr R)) (i j : Z) (e : expr R) : Prop :=
  (exists l1 l2, ts = l1 ++ (i, j, e) :: l2 /\ forall u, In u l2 -> fst u <> (i, j)) \/
  ((forall u, In u ts -> fst u <> (i, j)) /\ e = EConst 0).
(** The ids 0, ..., n-1 are the ids used. *)
Definition ids_are (n : nat) (used : list Z) : Prop := forall z, In z used <-> (0 <= z < Z.of_nat n)%Z.
(** The transitions written by the user, in order, whose rate involves x. *)
Inductive involving (x : string) : list (Z * Z * expr R) -> list (Z * Z) -> Prop :=
| inv_nil : involving x [] []
| inv_yes t ts l : occurs x (snd t) -> involving x ts l -> involving x (t :: ts) (fst t :: l)
| inv_no t ts l : ~ occurs x (snd t) -> involving x ts l -> involving x (t :: ts) l.
