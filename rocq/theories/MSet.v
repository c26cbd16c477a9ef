(** Model of jajapy/base/Set.py (class Set), except save/load (see MText). *)
From Coq Require Import String Ascii ZArith Bool Arith List.
From Verif Require Import Py.
Import ListNotations.

(** A Set object: Set.py:29-48.  [times] is an integer array with one entry per
    sequence, [ty] the [type] attribute (None, 0, 1, 3, 4). *)
Record tset (A : Type) := mkset { seqs : list A; times : list Z; ty : option Z }.
Arguments mkset {A} _ _ _.
Arguments seqs {A} _.
Arguments times {A} _.
Arguments ty {A} _.

Definition optZ_eqb (a b : option Z) : bool :=
  match a, b with
  | Some x, Some y => (x =? y)%Z
  | None, None => true
  | _, _ => false
  end.

Fixpoint zsum (l : list Z) : Z := match l with [] => 0 | x :: l' => x + zsum l' end%Z.

Section SetOps.
(** [A] is the type of sequences, compared with Python's [==]. *)
Context {A : Type} (eqb : A -> A -> bool).

(** Set.py:66-83 [setFromList], one iteration of the loop on the pair
    [res = [sequences, times]].  The [None] branch (ValueError of [index]) is
    unreachable: the sequence has just been added if it was missing. *)
Definition setFromList_step (res : list A * list Z) (s : A) : list A * list Z :=
  let '(ss, ts) := res in
  let '(ss, ts) := if memb eqb s ss then (ss, ts) else (ss ++ [s], ts ++ [0%Z]) in
  match index_of eqb s ss with
  | Some i => (ss, upd ts i (nth i ts 0 + 1)%Z)
  | None => (ss, ts)
  end.
Definition setFromList (l : list A) : list A * list Z :=
  fold_left setFromList_step l ([], []).

(** Set.py:85-100 [to_list] *)
Definition to_list (s : tset A) : list A :=
  seqs s ++ flat_map (fun '(x, j) => repeat x (Z.to_nat (j - 1))) (combine (seqs s) (times s)).

(** Set.py:124-130: the final loop of [isEqual] over [zip(sequences, times)];
    [index] failing is caught (ValueError), [times[i]] out of range is not. *)
Fixpoint isEqual_loop (l : list (A * Z)) (s2 : tset A) : res bool :=
  match l with
  | [] => Ok true
  | (s, t1) :: l' =>
      match index_of eqb s (seqs s2) with
      | None => Ok false
      | Some i => match nth_error (times s2) i with
                  | None => Err IndexError
                  | Some t2 => if (t1 =? t2)%Z then isEqual_loop l' s2 else Ok false
                  end
      end
  end.

(** Set.py:102-131 [isEqual] *)
Definition isEqual (s1 s2 : tset A) : res bool :=
  if negb (optZ_eqb (ty s1) (ty s2)) then Ok false
  else if negb (zsum (times s1) =? zsum (times s2))%Z then Ok false
  else if negb (length (seqs s1) =? length (seqs s2)) then Ok false
  else if negb (length (filter (fun i => memb eqb i (seqs s2)) (seqs s1)) =? length (seqs s2)) then Ok false
  else isEqual_loop (combine (seqs s1) (times s1)) s2.

(** Set.py:198-203: one iteration of the loop of [addSet]. *)
Definition addSet_step (s1 : list A * list Z) (e : A * Z) : list A * list Z :=
  let '(ss, ts) := s1 in
  let '(x, t) := e in
  if memb eqb x ss then
    match index_of eqb x ss with
    | Some i => (ss, upd ts i (nth i ts 0 + t)%Z)
    | None => (ss, ts) (* unreachable *)
    end
  else (ss ++ [x], ts ++ [t]).

(** Set.py:181-203 [addSet]: the new value of [self] (self is unchanged when it
    raises). *)
Definition addSet (s1 s2 : tset A) : res (tset A) :=
  if negb (optZ_eqb (ty s1) (ty s2)) then Err TypeError
  else let '(ss, ts) := fold_left addSet_step (combine (seqs s2) (times s2)) (seqs s1, times s1) in
       Ok (mkset ss ts (ty s1)).

(** Set.py:205-211 [sort]: [sorted(zip(sequences,times))]; [leb] is the order of
    Python on sequences. Insertion sort: any stable sort gives the same result. *)
Context (leb : A -> A -> bool).
Definition pair_leb (p q : A * Z) : bool :=
  if eqb (fst p) (fst q) then (snd p <=? snd q)%Z else leb (fst p) (fst q).
Fixpoint insert (p : A * Z) (l : list (A * Z)) : list (A * Z) :=
  match l with
  | [] => [p]
  | q :: l' => if pair_leb p q then p :: l else q :: insert p l'
  end.
Fixpoint isort (l : list (A * Z)) : list (A * Z) :=
  match l with [] => [] | p :: l' => insert p (isort l') end.
Definition sort (s : tset A) : tset A :=
  let x := isort (combine (seqs s) (times s)) in
  mkset (map fst x) (map snd x) (ty s).

End SetOps.

(** Lexicographic order of Python on lists, given equality and order of the
    elements. *)
Fixpoint lex_eqb {E} (eqb : E -> E -> bool) (l m : list E) : bool :=
  match l, m with
  | [], [] => true
  | a :: l', b :: m' => eqb a b && lex_eqb eqb l' m'
  | _, _ => false
  end.
Fixpoint lex_leb {E} (eqb leb : E -> E -> bool) (l m : list E) : bool :=
  match l, m with
  | [], _ => true
  | _ :: _, [] => false
  | a :: l', b :: m' => if eqb a b then lex_leb eqb leb l' m' else leb a b
  end.
(** Traces of strings. *)
Definition trace_eqb : list string -> list string -> bool := lex_eqb String.eqb.
Definition trace_leb : list string -> list string -> bool := lex_leb String.eqb String.leb.

Section Alphabet.
(** Set.py:133-179, on sets whose sequences are lists of [E]. *)
Context {E : Type} (eqb : E -> E -> bool).

(** [range(0, m, 2)] *)
Definition range2 (m : nat) : list nat := map (fun k => 2 * k) (seq 0 ((m + 1) / 2)).
(** [[seq[i+d] for i in range(0,m,2)]]; indices are in range at every use. *)
Definition pick2 (l : list E) (m d : nat) : list E :=
  flat_map (fun i => match nth_error l (i + d) with Some x => [x] | None => [] end) (range2 m).

(** Set.py:161-179 [getActionsObservations] on a type-1 set: (actions,
    observations). [seq[-1]] raises IndexError on an empty sequence.
    [list(set(...))] is modelled by [dedup]: its order is arbitrary in Python and
    irrelevant in the theorems. *)
Definition actions_observations (ss : list (list E)) : res (list E * list E) :=
  do r <- mfold (fun (acc : list E * list E) (s : list E) =>
                   match nth_error s (length s - 1) with
                   | None => Err IndexError
                   | Some last =>
                       Ok (fst acc ++ pick2 s (length s - 1) 1,
                           snd acc ++ pick2 s (length s - 1) 0 ++ [last])
                   end) ss ([], []);
  Ok (dedup eqb (fst r), dedup eqb (snd r)).

(** Set.py:133-158 [getAlphabet] *)
Definition getAlphabet (s : tset (list E)) : res (list E) :=
  match ty s with
  | Some 4%Z => Ok (dedup eqb (flat_map (fun l => pick2 l (length l) 0) (seqs s)))
  | Some 0%Z => Ok (dedup eqb (concat (seqs s)))
  | Some 1%Z => do r <- actions_observations (seqs s); Ok (snd r)
  | _ => Ok []
  end.
End Alphabet.

(** Dynamically typed elements of a trace: a label (or action), a float (dwell
    time), a vector of floats (GoHMM observation), an int. [F] is the type of
    floats. *)
Inductive pv (F : Type) := VStr (s : string) | VFlt (x : F) | VVec (l : list F) | VInt (z : Z).
Arguments VStr {F} s.
Arguments VFlt {F} x.
Arguments VVec {F} l.
Arguments VInt {F} z.

Section Constructor.
Context {F : Type} (eqb : list (pv F) -> list (pv F) -> bool).

(** Set.py:37-42: inference of the type from the first sequence.
    [sequences[0][1]] is evaluated first. *)
Definition infer_type (s0 : list (pv F)) : res Z :=
  match nth_error s0 1, nth_error s0 0 with
  | None, _ => Err IndexError
  | Some _, None => Err IndexError
  | Some v1, Some v0 =>
      match v1, v0 with
      | VFlt _, VStr _ => Ok 4%Z
      | _, VVec _ => Ok 3%Z
      | _, _ => Ok 0%Z
      end
  end.

(** Set.py:7-48 [Set.__init__(sequences, times, t)] *)
Definition newSet (sequences : list (list (pv F))) (tms : option (list Z)) (t : option Z)
  : res (tset (list (pv F))) :=
  match sequences with
  | [] => Ok (mkset [] [] t)
  | s0 :: _ =>
      do ty <- match t with Some v => Ok v | None => infer_type s0 end;
      match tms with
      | None => let '(ss, ts) := setFromList eqb sequences in Ok (mkset ss ts (Some ty))
      | Some ts => Ok (mkset sequences ts (Some ty))
      end
  end.
End Constructor.
