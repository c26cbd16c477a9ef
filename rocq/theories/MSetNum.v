(** The counts of a Set as Python and numpy store them: which of them are floats.
    The values are those of MSet.v. *)
From Coq Require Import String Ascii ZArith Bool List.
From Verif Require Import Num Py MSet MText.
Import ListNotations.

(** A count: an integer (of Python or numpy), or a float64 with an integral value. *)
Inductive count := CInt (z : Z) | CFlt (z : Z).
Definition cval (c : count) : Z := match c with CInt z | CFlt z => z end.
(** [a + b] of two counts. *)
Definition cadd (a b : count) : count :=
  match a, b with CInt x, CInt y => CInt (x + y) | _, _ => CFlt (cval a + cval b) end.

(** The attribute [times]: a list (Set.py:30 of an empty Set, 211 after sort), an
    array of integers or an array of floats. *)
Inductive counts := TList (l : list count) | TInts (l : list Z) | TFlts (l : list Z).
Definition entries (t : counts) : list count :=
  match t with TList l => l | TInts l => map CInt l | TFlts l => map CFlt l end.
Definition is_int (c : count) : bool := match c with CInt _ => true | CFlt _ => false end.
(** numpy's [array(l)]: without elements it is an array of floats, and one float
    makes all elements floats. *)
Definition np_array (l : list count) : counts :=
  match l with
  | [] => TFlts []
  | _ => if forallb is_int l then TInts (map cval l) else TFlts (map cval l)
  end.
(** numpy's [append(t, c)]: the array of [t], with the common type of both. *)
Definition np_append (t : counts) (c : count) : counts :=
  let t' := match t with TList l => np_array l | _ => t end in
  match t', c with
  | TInts l, CInt z => TInts (l ++ [z])
  | TInts l, CFlt z => TFlts (l ++ [z])
  | TFlts l, _ => TFlts (l ++ [cval c])
  | TList l, _ => TList (l ++ [c]) (* not reached *)
  end.
(** [t[i] += c]: arrays keep their type. *)
Definition inc_at (t : counts) (i : nat) (c : count) : counts :=
  match t with
  | TList l => TList (upd l i (cadd (nth i l (CInt 0)) c))
  | TInts l => TInts (upd l i (nth i l 0 + cval c)%Z)
  | TFlts l => TFlts (upd l i (nth i l 0 + cval c)%Z)
  end.

Record dset (A : Type) := mkD { dseqs : list A; dtimes : counts; dty : option Z }.
Arguments mkD {A} _ _ _.
Arguments dseqs {A} _.
Arguments dtimes {A} _.
Arguments dty {A} _.
(** The set of values, as in MSet.v. *)
Definition erase {A} (d : dset A) : tset A := mkset (dseqs d) (map cval (entries (dtimes d))) (dty d).

Section Ops.
  Context {A : Type} (eqb : A -> A -> bool).
  (** Set.py:28-48 with the type given: no sequence, a list of sequences, or
      sequences with their counts. *)
  Definition d_new (sequences : list A) (tms : option (list count)) (t : option Z) : dset A :=
    match sequences with
    | [] => mkD [] (TList []) t
    | _ =>
      match tms with
      | None => let '(ss, ts) := setFromList eqb sequences in mkD ss (np_array (map CInt ts)) t
      | Some ts => mkD sequences (np_array ts) t
      end
    end.
  (** Set.py:85-100 [to_list]: [range(j-1)] of a float raises TypeError. *)
  Definition d_to_list (d : dset A) : res (list A) :=
    do r <- mmap (fun xc => match snd xc with CInt j => Ok (repeat (fst xc) (Z.to_nat (j - 1))) | CFlt _ => Err TypeError end) (combine (dseqs d) (entries (dtimes d)));
    Ok (dseqs d ++ concat r).
  (** Set.py:198-203, one iteration *)
  Definition d_addSet_step (s1 : list A * counts) (e : A * count) : list A * counts :=
    let '(ss, ts) := s1 in
    let '(x, c) := e in
    if memb eqb x ss then
      match index_of eqb x ss with
      | Some i => (ss, inc_at ts i c)
      | None => (ss, ts) (* unreachable *)
      end
    else (ss ++ [x], np_append ts c).
  (** Set.py:181-203 [addSet] *)
  Definition d_addSet (s1 s2 : dset A) : res (dset A) :=
    if negb (optZ_eqb (dty s1) (dty s2)) then Err TypeError
    else let '(ss, ts) := fold_left d_addSet_step (combine (dseqs s2) (entries (dtimes s2))) (dseqs s1, dtimes s1) in
         Ok (mkD ss ts (dty s1)).
  (** Set.py:205-211 [sort]: pairs are compared by value; the counts become a list. *)
  Context (leb : A -> A -> bool).
  Fixpoint d_insert (p : A * count) (l : list (A * count)) : list (A * count) :=
    match l with
    | [] => [p]
    | q :: l' => if pair_leb eqb leb (fst p, cval (snd p)) (fst q, cval (snd q)) then p :: l else q :: d_insert p l'
    end.
  Fixpoint d_isort (l : list (A * count)) : list (A * count) :=
    match l with [] => [] | p :: l' => d_insert p (d_isort l') end.
  Definition d_sort (d : dset A) : dset A :=
    let x := d_isort (combine (dseqs d) (entries (dtimes d))) in
    mkD (map fst x) (TList (map snd x)) (dty d).
End Ops.

Section Files.
  Context {K : Type} `{Text K}.
  (** [str] of a count; a float with an integral value below 1e16. *)
  Definition show_count (c : count) : text :=
    match c with CInt z => show_int z | CFlt z => show_int z ++ s2t ".0" end.
  (** Set.py:50-64 [save] *)
  Definition d_save (d : dset (pyv K)) : text :=
    type_text (dty d) ++ [NL] ++
    flat_map (fun xc => repr (fst xc) ++ [NL] ++ show_count (snd xc) ++ [NL]) (combine (dseqs d) (entries (dtimes d))).
  (** Set.py:214-239 [loadSet]: the counts are read by [int] and given to the
      constructor. *)
  Definition d_load (file : text) : res (dset (pyv K)) :=
    do s <- loadSet file;
    Ok (match seqs s with [] => mkD [] (TList []) (ty s) | _ => mkD (seqs s) (np_array (map CInt (times s))) (ty s) end).
End Files.
