(** A reader for Prism CTMCs with constants: SPrism.v with declarations of
    constants, and rates that are any sequences of words without a colon. *)
From Coq Require Import String Ascii ZArith Bool List.
From Verif Require Import Num Py MText SPrism.
Import ListNotations.
Local Open Scope char_scope.

Section Reader.
  Context {K : Type} `{TK : Text K}.

  (** const double p; or const double p = v; any number of times *)
  Fixpoint get_consts (fuel : nat) (ts : list tok) : option (list (string * option K) * list tok) :=
    match fuel with
    | O => None
    | S f =>
      match ts with
      | TId "const" :: ts =>
        try ts <- expect [TId "double"] ts;
        try (p, ts) <- get_id ts;
        match ts with
        | TSym ";" :: ts => try (l, ts) <- get_consts f ts; Some ((p, None) :: l, ts)
        | TSym "=" :: ts => try (v, ts) <- get_num ts; try ts <- expect [TSym ";"] ts; try (l, ts) <- get_consts f ts; Some ((p, Some v) :: l, ts)
        | _ => None
        end
      | _ => Some ([], ts)
      end
    end.

  (** The words before the next colon, at least one. *)
  Fixpoint before_colon (ts : list tok) : option (list tok * list tok) :=
    match ts with
    | [] => None
    | TSym ":" :: ts => Some ([], ts)
    | x :: ts => try (l, ts) <- before_colon ts; Some (x :: l, ts)
    end.
  Definition get_rate (ts : list tok) : option (list tok * list tok) :=
    try (l, ts) <- before_colon ts; match l with [] => None | _ => Some (l, ts) end.

  (** rate : (s'=n) + ... + rate : (s'=n); *)
  Fixpoint get_pbranches (fuel : nat) (ts : list tok) : option (list (nat * list tok) * list tok) :=
    match fuel with
    | O => None
    | S f =>
      try (x, ts) <- get_rate ts;
      try ts <- expect [TSym "("; TId "s"; TSym "'"; TSym "="] ts;
      try (s, ts) <- get_nat ts;
      try ts <- expect [TSym ")"] ts;
      match ts with
      | TSym ";" :: ts => Some ([(s, x)], ts)
      | TSym "+" :: ts => try (l, ts) <- get_pbranches f ts; Some ((s, x) :: l, ts)
      | _ => None
      end
    end.
  (** [] s=n -> branches, any number of times, then endmodule *)
  Fixpoint get_pcommands (fuel : nat) (ts : list tok) : option (list (string * nat * list (nat * list tok)) * list tok) :=
    match fuel with
    | O => None
    | S f =>
      match ts with
      | TId "endmodule" :: ts => Some ([], ts)
      | TSym "[" :: ts =>
        try (a, ts) <- get_action ts;
        try ts <- expect [TId "s"; TSym "="] ts;
        try (s, ts) <- get_nat ts;
        try ts <- expect [TSym "-"; TSym ">"] ts;
        try (b, ts) <- get_pbranches (length ts) ts;
        try (l, ts) <- get_pcommands f ts;
        Some ((a, s, b) :: l, ts)
      | _ => None
      end
    end.

  (** The declared constants, and the rest. *)
  Definition read_pprism (t : text) : option (list (string * option K) * prism (list tok)) :=
    match words t with
    | TId k :: ts =>
      if negb (String.eqb k "ctmc") then None else
      try (cs, ts) <- get_consts (S (length ts)) ts;
      try ts <- expect [TId "module"] ts;
      try (name, ts) <- get_id ts;
      try ts <- expect [TId "s"; TSym ":"; TSym "["; TNum "0"; TSym "."; TSym "."] ts;
      try (n, ts) <- get_nat ts;
      try ts <- expect [TSym "]"; TId "init"] ts;
      try (i, ts) <- get_nat ts;
      try ts <- expect [TSym ";"] ts;
      try (c, ts) <- get_pcommands (S (length ts)) ts;
      try l <- get_labels (S (length ts)) ts;
      Some (cs, mkPrism k name n i c l)
    | _ => None
    end.
End Reader.
