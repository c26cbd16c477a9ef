(** A reader for the part of the Prism language that consists of one module
    with one variable, written from the Prism manual and independent of
    savePrism. *)
From Coq Require Import String Ascii ZArith Bool List.
From Verif Require Import Num Py MText.
Import ListNotations.
Local Open Scope char_scope.

(** ** Words *)
Inductive tok := TId (s : string) | TNum (s : string) | TSym (c : ascii).
Definition digit (c : ascii) : bool := existsb (ceq c) (s2t "0123456789").
Definition alpha (c : ascii) : bool := existsb (ceq c) (s2t "abcdefghijklmnopqrstuvwxyzABCDEFGHIJKLMNOPQRSTUVWXYZ_").
Definition alnum (c : ascii) : bool := digit c || alpha c.
Definition blank (c : ascii) : bool := existsb (ceq c) [" "; TAB; NL; CR].

(** The longest prefix of the form digits [. digits] [e [+|-] digits], and the rest. *)
Definition fraction (t : text) : text * text :=
  match t with
  | "." :: d :: _ => if digit d then let (a, b) := span digit (tl t) in ("." :: a, b) else ([], t)
  | _ => ([], t)
  end.
Definition exponent (t : text) : text * text :=
  match t with
  | e :: r =>
    if ceq e "e" || ceq e "E" then
      match r with
      | d :: r' => if digit d then let (a, b) := span digit r in (e :: a, b)
                   else if (ceq d "+" || ceq d "-") && match r' with x :: _ => digit x | [] => false end then let (a, b) := span digit r' in (e :: d :: a, b)
                   else ([], t)
      | [] => ([], t)
      end
    else ([], t)
  | [] => ([], t)
  end.
Definition number (t : text) : text * text :=
  let (a, t) := span digit t in let (b, t) := fraction t in let (c, t) := exponent t in (a ++ b ++ c, t).

Fixpoint lex (fuel : nat) (t : text) : list tok :=
  match fuel, t with
  | S f, c :: r =>
    if blank c then lex f r
    else if digit c then let (w, r) := number t in TNum (t2s w) :: lex f r
    else if alpha c then let (w, r) := span alnum t in TId (t2s w) :: lex f r
    else TSym c :: lex f r
  | _, _ => []
  end.
Definition words (t : text) : list tok := lex (length t) t.

(** ** Sentences *)
Definition reserved : list string := ["A"; "bool"; "clock"; "const"; "ctmc"; "C"; "double"; "dtmc"; "E"; "endinit"; "endinvariant"; "endmodule"; "endobservables"; "endrewards"; "endsystem"; "false"; "formula"; "filter"; "func"; "F"; "global"; "G"; "init"; "invariant"; "I"; "int"; "label"; "max"; "mdp"; "min"; "module"; "X"; "nondeterministic"; "observable"; "observables"; "of"; "Pmax"; "Pmin"; "P"; "pomdp"; "popta"; "probabilistic"; "prob"; "pta"; "rate"; "rewards"; "Rmax"; "Rmin"; "R"; "S"; "stochastic"; "system"; "true"; "U"; "W"]%string.
Definition ident (s : string) : bool := negb (existsb (String.eqb s) reserved).

Definition tok_eqb (a b : tok) : bool :=
  match a, b with
  | TId x, TId y => String.eqb x y
  | TNum x, TNum y => String.eqb x y
  | TSym x, TSym y => ceq x y
  | _, _ => false
  end.
Fixpoint expect (l ts : list tok) : option (list tok) :=
  match l, ts with
  | [], _ => Some ts
  | a :: l, b :: ts => if tok_eqb a b then expect l ts else None
  | _, _ => None
  end.
Notation "'try' x <- a ; b" := (match a with Some x => b | None => None end) (at level 200, x pattern, right associativity).

Definition get_nat (ts : list tok) : option (nat * list tok) :=
  match ts with
  | TNum s :: r => match read_int (s2t s) with Some z => Some (Z.to_nat z, r) | None => None end
  | _ => None
  end.
Definition get_id (ts : list tok) : option (string * list tok) :=
  match ts with TId s :: r => if ident s then Some (s, r) else None | _ => None end.

Section Reader.
  Context {K : Type} `{TK : Text K}.
  Definition get_num (ts : list tok) : option (K * list tok) :=
    match ts with TNum s :: r => match read s with Some x => Some (x, r) | None => None end | _ => None end.

  (** x:(s'=n) + ... + x:(s'=n); *)
  Fixpoint get_branches (fuel : nat) (ts : list tok) : option (list (nat * K) * list tok) :=
    match fuel with
    | O => None
    | S f =>
      try (x, ts) <- get_num ts;
      try ts <- expect [TSym ":"; TSym "("; TId "s"; TSym "'"; TSym "="] ts;
      try (s, ts) <- get_nat ts;
      try ts <- expect [TSym ")"] ts;
      match ts with
      | TSym ";" :: ts => Some ([(s, x)], ts)
      | TSym "+" :: ts => try (l, ts) <- get_branches f ts; Some ((s, x) :: l, ts)
      | _ => None
      end
    end.

  Definition get_action (ts : list tok) : option (string * list tok) :=
    match ts with TSym "]" :: r => Some (EmptyString, r) | _ => try (a, ts) <- get_id ts; try ts <- expect [TSym "]"] ts; Some (a, ts) end.

  (** [a] s=n -> branches, any number of times, then endmodule *)
  Fixpoint get_commands (fuel : nat) (ts : list tok) : option (list (string * nat * list (nat * K)) * list tok) :=
    match fuel with
    | O => None
    | S f =>
      match ts with
      | TId "endmodule" :: ts => Some ([], ts)
      | TSym "[" :: ts =>
        try (a, ts) <- get_action ts;
        try ts <- expect [TId "s"; TSym "="] ts;
        try (s, ts) <- get_nat ts;
        try ts <- expect [TSym "-"; TSym ">"] ts;
        try (b, ts) <- get_branches (length ts) ts;
        try (l, ts) <- get_commands f ts;
        Some ((a, s, b) :: l, ts)
      | _ => None
      end
    end.

  (** s=n | ... | s=n; *)
  Fixpoint get_states (fuel : nat) (ts : list tok) : option (list nat * list tok) :=
    match fuel with
    | O => None
    | S f =>
      try ts <- expect [TId "s"; TSym "="] ts;
      try (s, ts) <- get_nat ts;
      match ts with
      | TSym ";" :: ts => Some ([s], ts)
      | TSym "|" :: ts => try (l, ts) <- get_states f ts; Some (s :: l, ts)
      | _ => None
      end
    end.

  (** label "l" = states, until the end of the file *)
  Fixpoint get_labels (fuel : nat) (ts : list tok) : option (list (string * list nat)) :=
    match fuel with
    | O => None
    | S f =>
      match ts with
      | [] => Some []
      | _ =>
        try ts <- expect [TId "label"; TSym DQUOTE] ts;
        try (l, ts) <- get_id ts;
        try ts <- expect [TSym DQUOTE; TSym "="] ts;
        try (q, ts) <- get_states (length ts) ts;
        try r <- get_labels f ts;
        Some ((l, q) :: r)
      end
    end.

  Record prism := mkPrism { p_kind : string; p_name : string; p_max : nat; p_init : nat;
    p_cmds : list (string * nat * list (nat * K)); p_labels : list (string * list nat) }.

  Definition read_prism (t : text) : option prism :=
    match words t with
    | TId k :: ts =>
      if negb (existsb (String.eqb k) ["dtmc"; "mdp"; "ctmc"]%string) then None else
      try ts <- expect [TId "module"] ts;
      try (name, ts) <- get_id ts;
      try ts <- expect [TId "s"; TSym ":"; TSym "["; TNum "0"; TSym "."; TSym "."] ts;
      try (n, ts) <- get_nat ts;
      try ts <- expect [TSym "]"; TId "init"] ts;
      try (i, ts) <- get_nat ts;
      try ts <- expect [TSym ";"] ts;
      try (c, ts) <- get_commands (S (length ts)) ts;
      try l <- get_labels (S (length ts)) ts;
      Some (mkPrism k name n i c l)
    | _ => None
    end.
End Reader.
Arguments prism K : clear implicits.

(** ** Vocabulary for the statements *)
(** A name Prism accepts. *)
Definition name_ok (s : string) : Prop :=
  exists c r, s2t s = c :: r /\ alpha c = true /\ (forall d, In d r -> alnum d = true) /\ ident s = true.
(** A float written as Prism writes numbers and read back as the same float. *)
Definition number_ok {K} `{Text K} (x : K) : Prop :=
  exists c r, s2t (show x) = c :: r /\ digit c = true /\ number (s2t (show x)) = (s2t (show x), []) /\ read (show x) = Some x.

(** [mat[s][s'] = x] and [x <> 0]. *)
Definition entry {K} `{Num K} (mat : list (list K)) (s s' : nat) (x : K) : Prop :=
  exists row, nth_error mat s = Some row /\ nth_error row s' = Some x /\ neqb x n0 = false.

(** The label formulas list, for each label other than init, exactly the states
    that carry it, once each. *)
Definition lists_labels {K} (p : prism K) (labels : list string) : Prop :=
  NoDup (map fst (p_labels p)) /\ (forall l q, In (l, q) (p_labels p) -> NoDup q) /\
  forall l s, (exists q, In (l, q) (p_labels p) /\ In s q) <-> nth_error labels s = Some l /\ l <> "init"%string.

(** The commands list exactly the transitions [T a s s' x], once each, with at
    most one command per state and action. *)
Definition lists_transitions {K} (p : prism K) (T : string -> nat -> nat -> K -> Prop) : Prop :=
  NoDup (map fst (p_cmds p)) /\ (forall c b, In (c, b) (p_cmds p) -> NoDup (map fst b)) /\
  forall a s s' x, (exists b, In (a, s, b) (p_cmds p) /\ In (s', x) b) <-> T a s s' x.
