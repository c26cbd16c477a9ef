(** Python exceptions, results, and small list utilities that mirror Python's
    built-in operations. *)
From Coq Require Import List ZArith Bool Lia.
Import ListNotations.

(** Exception classes raised by the modelled code. *)
Inductive exn :=
| TypeError | ValueError | IndexError | SyntaxError | AttributeError
| KeyError | ZeroDivisionError | NameError | UnboundLocalError | RuntimeError
| RecursionError | EOFError.

Inductive res (A : Type) : Type := Ok (a : A) | Err (e : exn).
Arguments Ok {A} _.
Arguments Err {A} _.

Definition bind {A B} (x : res A) (f : A -> res B) : res B :=
  match x with Ok a => f a | Err e => Err e end.
Notation "'do' x <- a ; b" := (bind a (fun x => b))
  (at level 200, x pattern, a at level 100, b at level 200).

Definition isOk {A} (x : res A) : bool := match x with Ok _ => true | Err _ => false end.

(** [for x in l: ...] with an exception stopping the loop. *)
Fixpoint mfold {A S} (f : S -> A -> res S) (l : list A) (s : S) : res S :=
  match l with
  | [] => Ok s
  | a :: l' => do s' <- f s a; mfold f l' s'
  end.

(** [[f(x) for x in l]] where [f] may raise. *)
Fixpoint mmap {A B} (f : A -> res B) (l : list A) : res (list B) :=
  match l with
  | [] => Ok []
  | a :: l' => do b <- f a; do bs <- mmap f l'; Ok (b :: bs)
  end.

(** [l[i]] for a Python list or a 1-D array: negative indices count from the
    end, anything else out of range raises IndexError. *)
Definition pyget {A} (l : list A) (i : Z) : res A :=
  let n := Z.of_nat (length l) in
  let j := if (i <? 0)%Z then (i + n)%Z else i in
  if ((j <? 0) || (n <=? j))%Z%bool then Err IndexError
  else match nth_error l (Z.to_nat j) with Some a => Ok a | None => Err IndexError end.

(** [l[i] = x] (same indexing convention). *)
Fixpoint upd {A} (l : list A) (i : nat) (x : A) : list A :=
  match l, i with
  | [], _ => []
  | _ :: l', O => x :: l'
  | a :: l', S i' => a :: upd l' i' x
  end.

Definition pyset {A} (l : list A) (i : Z) (x : A) : res (list A) :=
  let n := Z.of_nat (length l) in
  let j := if (i <? 0)%Z then (i + n)%Z else i in
  if ((j <? 0) || (n <=? j))%Z%bool then Err IndexError
  else Ok (upd l (Z.to_nat j) x).

Section EqDec.
  Context {A : Type} (eqb : A -> A -> bool).

  (** [x in l] *)
  Definition memb (x : A) (l : list A) : bool := existsb (eqb x) l.

  (** [l.index(x)]; [None] stands for the ValueError. *)
  Fixpoint index_of (x : A) (l : list A) : option nat :=
    match l with
    | [] => None
    | y :: l' => if eqb x y then Some O
                 else match index_of x l' with Some i => Some (S i) | None => None end
    end.

  (** [l.count(x)] *)
  Fixpoint countb (x : A) (l : list A) : nat :=
    match l with
    | [] => O
    | y :: l' => (if eqb x y then 1 else 0) + countb x l'
    end.

  (** The loop "[for x in l: if x not in res: res.append(x)]". *)
  Fixpoint dedup_into (res : list A) (l : list A) : list A :=
    match l with
    | [] => res
    | x :: l' => dedup_into (if memb x res then res else res ++ [x]) l'
    end.
  Definition dedup (l : list A) : list A := dedup_into [] l.
End EqDec.
