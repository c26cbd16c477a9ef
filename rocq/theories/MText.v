(** Text files: [repr], [ast.literal_eval], [readline], and the save and load
    functions.  A text is a list of characters; characters are Unicode code
    points below 256 (others are not modelled). *)
From Coq Require Import String Ascii ZArith Bool DecimalString List.
From Verif Require Import Num Py MTools MSet MModels MCtor.
Import ListNotations.
Local Open Scope char_scope.

Definition text := list ascii.
Definition s2t (s : string) : text := list_ascii_of_string s.
Definition t2s (t : text) : string := string_of_list_ascii t.
Definition ceq (a b : ascii) : bool := Ascii.eqb a b.
Definition NL : ascii := "010".
Definition CR : ascii := "013".
Definition TAB : ascii := "009".
Definition QUOTE : ascii := "'".
Definition DQUOTE : ascii := """".

(** Python values met in the files. *)
Inductive pyv (K : Type) : Type :=
| PNone
| PStr (s : string)
| PInt (z : Z)
| PFlt (x : K)
| PList (l : list (pyv K)).
Arguments PNone {K}.
Arguments PStr {K} s.
Arguments PInt {K} z.
Arguments PFlt {K} x.
Arguments PList {K} l.

(** repr(float) and reading a float literal: Python's shortest representation,
    not modelled further. *)
Class Text (K : Type) := { show : K -> string; read : string -> option K }.

(** ** Integers *)
(** str(int) *)
Definition show_int (z : Z) : text := s2t (NilZero.string_of_int (Z.to_int z)).
(** An integer literal; other notations accepted by int() or literal_eval
    (spaces, underscores, a plus sign) are not modelled. *)
Definition read_int (t : text) : option Z :=
  match NilZero.int_of_string (t2s t) with Some d => Some (Z.of_int d) | None => None end.

(** ** Strings *)
(** repr(str): characters written as such. *)
Definition printable (c : ascii) : bool :=
  let n := nat_of_ascii c in
  (((32 <=? n) && (n <=? 126)) || ((161 <=? n) && negb (n =? 173)))%nat.
Definition hexdigit (n : nat) : ascii := nth n (s2t "0123456789abcdef") "0".
Definition esc (q c : ascii) : text :=
  if ceq c "\" then ["\"; "\"]
  else if ceq c q then ["\"; q]
  else if ceq c NL then ["\"; "n"]
  else if ceq c CR then ["\"; "r"]
  else if ceq c TAB then ["\"; "t"]
  else if printable c then [c]
  else ["\"; "x"; hexdigit (nat_of_ascii c / 16); hexdigit (nat_of_ascii c mod 16)].
Definition quote_of (t : text) : ascii :=
  if existsb (ceq QUOTE) t && negb (existsb (ceq DQUOTE) t) then DQUOTE else QUOTE.
Definition repr_str (s : string) : text :=
  let t := s2t s in let q := quote_of t in q :: flat_map (esc q) t ++ [q].

Definition unhex (c : ascii) : option nat := index_of ceq c (s2t "0123456789abcdef").
(** The literal after its opening quote, and what follows it.  Octal, unicode
    and named escapes are not modelled (repr does not produce them here). *)
Fixpoint parse_str (q : ascii) (t : text) : option (text * text) :=
  match t with
  | [] => None
  | c :: r =>
    if ceq c q then Some ([], r)
    else if ceq c NL then None
    else if ceq c "\" then
      match r with
      | [] => None
      | e :: r' =>
        let push c t := match parse_str q t with Some (s, u) => Some (c :: s, u) | None => None end in
        if ceq e "\" then push "\" r'
        else if ceq e QUOTE then push QUOTE r'
        else if ceq e DQUOTE then push DQUOTE r'
        else if ceq e "n" then push NL r'
        else if ceq e "r" then push CR r'
        else if ceq e "t" then push TAB r'
        else if ceq e "x" then
          match r' with
          | a :: b :: r'' =>
            match unhex a, unhex b with
            | Some x, Some y => push (ascii_of_nat (16 * x + y)) r''
            | _, _ => None
            end
          | _ => None
          end
        else match push e r' with Some (s, u) => Some ("\" :: s, u) | None => None end
      end
    else match parse_str q r with Some (s, u) => Some (c :: s, u) | None => None end
  end.

(** ** Values *)
Fixpoint join (sep : text) (l : list text) : text :=
  match l with
  | [] => []
  | [x] => x
  | x :: l' => x ++ sep ++ join sep l'
  end.

Definition numchar (c : ascii) : bool := existsb (ceq c) (s2t "0123456789.e+-").
Fixpoint span (f : ascii -> bool) (t : text) : text * text :=
  match t with
  | [] => ([], [])
  | c :: r => if f c then let (a, b) := span f r in (c :: a, b) else ([], t)
  end.
Definition skip (t : text) : text := snd (span (ceq " ") t).

Section Values.
  Context {K : Type} `{Text K}.

  (** str of a value (repr inside lists) *)
  Fixpoint repr (v : pyv K) : text :=
    match v with
    | PNone => s2t "None"
    | PStr s => repr_str s
    | PInt z => show_int z
    | PFlt x => s2t (show x)
    | PList l => "[" :: join [","; " "] (map repr l) ++ ["]"]
    end.

  Definition parse_num (t : text) : option (pyv K * text) :=
    let (tok, r) := span numchar t in
    match read_int tok with
    | Some z => Some (PInt z, r)
    | None => match read (t2s tok) with Some x => Some (PFlt x, r) | None => None end
    end.

  (** ast.literal_eval on None, strings, numbers and lists.  [None]: any error. *)
  Fixpoint parse (fuel : nat) (t : text) : option (pyv K * text) :=
    match fuel with
    | O => None
    | S f =>
      match t with
      | [] => None
      | c :: r =>
        if ceq c "[" then
          match skip r with
          | [] => None
          | c' :: r' => if ceq c' "]" then Some (PList [], r')
                        else match parse_items f (c' :: r') with Some (l, u) => Some (PList l, u) | None => None end
          end
        else if ceq c QUOTE || ceq c DQUOTE then
          match parse_str c r with Some (s, u) => Some (PStr (t2s s), u) | None => None end
        else if numchar c then parse_num t
        else match t with
             | "N" :: "o" :: "n" :: "e" :: u => Some (PNone, u)
             | _ => None
             end
      end
    end
  with parse_items (fuel : nat) (t : text) : option (list (pyv K) * text) :=
    match fuel with
    | O => None
    | S f =>
      match parse f t with
      | None => None
      | Some (v, r) =>
        match skip r with
        | "]" :: u => Some ([v], u)
        | "," :: u => match parse_items f (skip u) with Some (l, w) => Some (v :: l, w) | None => None end
        | _ => None
        end
      end
    end.
  (** literal_eval raises ValueError or SyntaxError: here always ValueError. *)
  Definition literal_eval (t : text) : res (pyv K) :=
    match parse (S (length t)) t with
    | Some (v, r) => match skip r with [] => Ok v | _ => Err ValueError end
    | None => Err ValueError
    end.

  (** ** Files *)
  (** Text mode reading: universal newlines. *)
  Fixpoint newlines (t : text) : text :=
    match t with
    | [] => []
    | c :: r => if ceq c CR then NL :: match r with c' :: r' => if ceq c' NL then newlines r' else newlines r | [] => [] end
                else c :: newlines r
    end.
  (** [f.readline()]: up to and including the next newline. *)
  Fixpoint readline (t : text) : text * text :=
    match t with
    | [] => ([], [])
    | c :: r => if ceq c NL then ([c], r) else let (l, u) := readline r in (c :: l, u)
    end.
  (** [l[:-1]] *)
  Definition chop (l : text) : text := removelast l.

  (** ** Sets *)
  (** jajapy/base/Set.py:50-64 [save]; [str(self.times[i])] for integers. *)
  Definition type_text (o : option Z) : text := match o with Some z => show_int z | None => s2t "None" end.
  Definition set_save (s : tset (pyv K)) : text :=
    type_text (ty s) ++ [NL] ++
    flat_map (fun xt => repr (fst xt) ++ [NL] ++ show_int (snd xt) ++ [NL]) (combine (seqs s) (times s)).

  (** jajapy/base/Set.py:214-239 [loadSet]; the constructor (28-48) with times given. *)
  Fixpoint load_pairs (fuel : nat) (t : text) : res (list (pyv K) * list Z) :=
    match fuel with
    | O => Err RecursionError
    | S f =>
      let (l, r) := readline t in
      match l with
      | [] => Ok ([], [])
      | _ =>
        do v <- literal_eval (chop l);
        let (l2, r2) := readline r in
        do n <- match read_int (chop l2) with Some z => Ok z | None => Err ValueError end;
        do rest <- load_pairs f r2;
        Ok (v :: fst rest, n :: snd rest)
      end
    end.
  Definition loadSet (file : text) : res (tset (pyv K)) :=
    let t := newlines file in
    let (l, r) := readline t in
    do tv <- literal_eval (chop l);
    do ps <- load_pairs (S (length r)) r;
    match tv with
    | PInt z => Ok (mkset (fst ps) (snd ps) (Some z))
    | PNone => match fst ps with [] => Ok (mkset [] [] None) | _ => Err TypeError end (* the type is then inferred: not modelled *)
    | _ => Err TypeError (* accepted by Python: not modelled *)
    end.

  (** ** Models *)
  Context `{Num K}.
  Definition strs (l : list string) : pyv K := PList (map PStr l).
  Definition vec (l : list K) : pyv K := PList (map PFlt l).
  Definition mat (m : list (list K)) : pyv K := PList (map vec m).
  Definition ten (m : list (list (list K))) : pyv K := PList (map mat m).

  (** Reading them back; [array(...)] of other values is not modelled. *)
  Definition as_list (v : pyv K) : res (list (pyv K)) := match v with PList l => Ok l | _ => Err TypeError end.
  Definition as_str (v : pyv K) : res string := match v with PStr s => Ok s | _ => Err TypeError end.
  Definition as_flt (v : pyv K) : res K := match v with PFlt x => Ok x | PInt z => Ok (nofZ z) | _ => Err TypeError end.
  Definition as_strs (v : pyv K) : res (list string) := do l <- as_list v; mmap as_str l.
  Definition as_vec (v : pyv K) : res (list K) := do l <- as_list v; mmap as_flt l.
  Definition as_mat (v : pyv K) : res (list (list K)) := do l <- as_list v; mmap as_vec l.
  Definition as_ten (v : pyv K) : res (list (list (list K))) := do l <- as_list v; mmap as_mat l.

  Definition line (t : text) : text := t ++ [NL].

  (** jajapy/base/Model.py:78-85 [_save] *)
  Definition model_save (name : string) (ini : list K) (matrix : pyv K) : text :=
    line (s2t name) ++ line (repr (vec ini)) ++ line (repr matrix).
  (** jajapy/base/Base_MC.py:124-127 *)
  Definition base_mc_save (labels : list string) (name : string) (ini : list K) (matrix : pyv K) : text :=
    line (repr (strs labels)) ++ model_save name ini matrix.

  (** jajapy/mc/MC.py:152-165 *)
  Definition mc_save (m : mc K) : text :=
    line (s2t "MC") ++ base_mc_save (mc_lab m) (mc_name m) (mc_ini m) (mat (mc_mat m)).
  (** jajapy/ctmc/CTMC.py:283-296 *)
  Definition ctmc_save (m : ctmc K) : text :=
    line (s2t "CTMC") ++ base_mc_save (ct_lab m) (ct_name m) (ct_ini m) (mat (ct_mat m)).
  (** jajapy/mdp/MDP.py:272-288 *)
  Definition mdp_save (m : mdp K) : text :=
    line (s2t "MDP") ++ line (repr (strs (mdp_act m))) ++ base_mc_save (mdp_lab m) (mdp_name m) (mdp_ini m) (ten (mdp_mat m)).
  (** jajapy/hmm/HMM.py:123-140, jajapy/base/Base_HMM.py:90-93 *)
  Definition hmm_save (m : hmm K) : text :=
    line (s2t "HMM") ++ line (repr (strs (hmm_alph m))) ++ line (repr (mat (hmm_out m))) ++ model_save (hmm_name m) (hmm_ini m) (mat (hmm_mat m)).
  (** jajapy/gohmm/GoHMM.py:170-184 *)
  Definition go_out_val (o : list (list (K * K))) : pyv K := ten (map (map (fun p => [fst p; snd p])) o).
  Definition go_save (m : gohmm K) : text :=
    line (s2t "GoHMM") ++ line (repr (go_out_val (go_out m))) ++ model_save (go_name m) (go_ini m) (mat (go_mat m)).

  (** One line of the file, and the rest. *)
  Definition nextline (t : text) : text * text := let (l, r) := readline t in (chop l, r).

  (** name, initial_state and matrix, common to all load functions *)
  Definition load_tail (t : text) : res (string * list K * pyv K) :=
    let (name, t) := nextline t in
    let (i, t) := nextline t in
    do ini <- literal_eval i; do ini <- as_vec ini;
    let (m, _) := nextline t in
    do matrix <- literal_eval m;
    Ok (t2s name, ini, matrix).

  (** jajapy/mc/MC.py:198-227: initial_state is not used. *)
  Definition loadMC (file : text) : res (mc K) :=
    let (h, t) := nextline (newlines file) in
    if negb (String.eqb (t2s h) "MC") then Err ValueError
    else
      let (l, t) := nextline t in
      do labels <- literal_eval l; do labels <- as_strs labels;
      do nim <- load_tail t;
      do matrix <- as_mat (snd nim);
      MC_new matrix labels (fst (fst nim)).

  (** jajapy/ctmc/CTMC.py:321-346: another first line is only printed about. *)
  Definition loadCTMC (file : text) : res (ctmc K) :=
    let (h, t) := nextline (newlines file) in
    let (l, t) := nextline t in
    do labels <- literal_eval l; do labels <- as_strs labels;
    do nim <- load_tail t;
    do matrix <- as_mat (snd nim);
    CTMC_new matrix labels (fst (fst nim)).

  (** jajapy/mdp/MDP.py:446-473 *)
  Definition loadMDP (file : text) : res (mdp K) :=
    let (h, t) := nextline (newlines file) in
    if negb (String.eqb (t2s h) "MDP") then Err ValueError
    else
      let (a, t) := nextline t in
      do actions <- literal_eval a; do actions <- as_strs actions;
      let (l, t) := nextline t in
      do labels <- literal_eval l; do labels <- as_strs labels;
      do nim <- load_tail t;
      do matrix <- as_ten (snd nim);
      MDP_new matrix labels actions (fst (fst nim)).

  (** jajapy/hmm/HMM.py:155-181: another first line is only printed about. *)
  Definition loadHMM (file : text) : res (hmm K) :=
    let (h, t) := nextline (newlines file) in
    let (a, t) := nextline t in
    do alphabet <- literal_eval a; do alphabet <- as_strs alphabet;
    let (o, t) := nextline t in
    do output <- literal_eval o; do output <- as_mat output;
    do nim <- load_tail t;
    do matrix <- as_mat (snd nim);
    HMM_new matrix output false alphabet (IniList (snd (fst nim))) (fst (fst nim)).

  (** jajapy/gohmm/GoHMM.py:194-219: another first line is only printed about. *)
  Definition as_pair (l : list K) : res (K * K) := match l with [a; b] => Ok (a, b) | _ => Err ValueError end.
  Definition loadGoHMM (file : text) : res (gohmm K) :=
    let (h, t) := nextline (newlines file) in
    let (o, t) := nextline t in
    do output <- literal_eval o; do output <- as_ten output;
    do output <- mmap (mmap as_pair) output;
    do nim <- load_tail t;
    do matrix <- as_mat (snd nim);
    GoHMM_new matrix output (IniList (snd (fst nim))) (fst (fst nim)).
End Values.
