(** A reader for what print shows: the information a user finds in each line. *)
From Coq Require Import String Ascii ZArith Bool List.
From Verif Require Import Num Py MText SPrism.
Import ListNotations.
Local Open Scope char_scope.

Fixpoint lines (t : text) : list text :=
  match t with
  | [] => []
  | c :: r => if ceq c NL then [] :: lines r
              else match lines r with [] => [[c]] | l :: ls => (c :: l) :: ls end
  end.

(** What a line says. *)
Inductive info :=
| Title (name : string)
| Start (l : list (nat * option string))   (* initial states; [None]: with certainty *)
| State (s : nat) (label : option string)
| Wait (v : string)
| Move (s s' : nat) (v : string)
| Rate (s s' : nat) (v : string)
| Act (s : nat) (a : string) (s' : nat) (v : string)
| Obs (s : nat) (o : string) (v : string)
| Mean (n : nat) (v : string)
| Std (n : nat) (v : string)
| Param (x v : string).

Fixpoint strip (p t : text) : option text :=
  match p, t with
  | [], _ => Some t
  | a :: p, b :: t => if ceq a b then strip p t else None
  | _, [] => None
  end.
Definition number_at (t : text) : option (nat * text) :=
  let (d, r) := span digit t in match read_int d with Some z => Some (Z.to_nat z, r) | None => None end.
Definition upto (c : ascii) (t : text) : text * text := span (fun x => negb (ceq x c)) t.
Definition or_else {A} (a b : option A) : option A := match a with Some _ => a | None => b end.

(** sI: V, sI: V, ... or sI *)
Fixpoint starts (fuel : nat) (t : text) : list (nat * option string) :=
  match fuel with
  | O => []
  | S f =>
    match strip ["s"] t with
    | None => []
    | Some t =>
      match number_at t with
      | None => []
      | Some (i, t) =>
        match strip (s2t ": ") t with
        | None => [(i, None)]
        | Some t => let (v, t) := upto "," t in
          (i, Some (t2s v)) :: match strip (s2t ", ") t with Some t => starts f t | None => [] end
        end
      end
    end
  end.

Definition read_title (t : text) : option info := try t <- strip (s2t "Name: ") t; Some (Title (t2s t)).
Definition read_start (t : text) : option info := try t <- strip (s2t "Initial state: ") t; Some (Start (starts (length t) t)).
(** ----STATE I--LABEL---- *)
Definition read_state (t : text) : option info :=
  try t <- strip (s2t "----STATE ") t;
  match strip ["s"] t with
  | Some t => try (s, _) <- number_at t; Some (State s None)
  | None => try (s, t) <- number_at t; try t <- strip (s2t "--") t; Some (State s (Some (t2s (firstn (length t - 4) t))))
  end.
Definition read_wait (t : text) : option info := try t <- strip (s2t "Exepected waiting time: ") t; Some (Wait (t2s t)).
(** sI -> sJ : V, sI -> sJ : lambda = V, sI - (A) -> sJ : V, sI => O : V *)
Definition read_arrow (t : text) : option info :=
  try t <- strip ["s"] t;
  try (s, t) <- number_at t;
  match strip (s2t " -> s") t with
  | Some t =>
    try (s', t) <- number_at t; try t <- strip (s2t " : ") t;
    match strip (s2t "lambda = ") t with Some v => Some (Rate s s' (t2s v)) | None => Some (Move s s' (t2s t)) end
  | None =>
    match strip (s2t " - (") t with
    | Some t =>
      let (a, t) := upto ")" t in
      try t <- strip (s2t ") -> s") t; try (s', t) <- number_at t; try t <- strip (s2t " : ") t; Some (Act s (t2s a) s' (t2s t))
    | None =>
      try t <- strip (s2t " => ") t;
      let (o, t) := upto ":" t in
      try t <- strip (s2t ": ") t; Some (Obs s (t2s (removelast o)) (t2s t))
    end
  end.
Definition read_gauss (t : text) : option info :=
  match strip (s2t "mean ") t with
  | Some t => try (n, t) <- number_at t; try t <- strip (s2t ": ") t; Some (Mean n (t2s t))
  | None => try t <- strip (s2t "std ") t; try (n, t) <- number_at t; try t <- strip (s2t ": ") t; Some (Std n (t2s t))
  end.
(** X = V *)
Definition read_param (t : text) : option info :=
  let (x, t) := upto " " t in try t <- strip (s2t " = ") t; Some (Param (t2s x) (t2s t)).
Definition read_line (t : text) : option info :=
  or_else (read_title t) (or_else (read_start t) (or_else (read_state t) (or_else (read_wait t) (or_else (read_arrow t) (or_else (read_gauss t) (read_param t)))))).

Definition page (t : text) : list info :=
  flat_map (fun l => match read_line l with Some i => [i] | None => [] end) (lines t).

(** The parts of the page about one state: its number, its label and what is
    said of it. *)
Fixpoint body (p : list info) : list info :=
  match p with
  | [] => []
  | State _ _ :: _ => []
  | i :: r => i :: body r
  end.
Fixpoint sections (p : list info) : list (nat * option string * list info) :=
  match p with
  | [] => []
  | State s l :: r => (s, l, body r) :: sections r
  | _ :: r => sections r
  end.
