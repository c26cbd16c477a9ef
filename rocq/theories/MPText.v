(** Parametric CTMCs in text files: jajapy/pctmc/PCTMC.py:369-383, 433-459 and
    jajapy/base/Parametric_Model.py:434-449, 461-474.

    A model comes with its synchronous transitions as in MPCompose.v: [Some l],
    or [None] when it has the list that is the default value of the argument of
    the constructor. *)
From Coq Require Import String Ascii ZArith Bool List.
From Verif Require Import Num Py MTools MModels MCtor MText MPctmc.
Import ListNotations.
Local Open Scope char_scope.

(** [str] of an expression and [sympify] of a text ([None]: SympifyError, a
    ValueError): not modelled further. *)
Class Sym (K : Type) := { show_expr : expr K -> string; read_expr : string -> option (expr K) }.

Section PText.
  Context {K : Type} `{Num K} `{Text K} `{Sym K}.

  (** str of a dict from names to floats *)
  Definition repr_entry (p : string * K) : text := repr_str (fst p) ++ [":"; " "] ++ repr (PFlt (snd p)).
  Definition repr_dict (d : dict K) : text := "{" :: join [","; " "] (map repr_entry d) ++ ["}"].

  (** literal_eval of such a text: the entries, in order.  The last value given
      to a key is kept, at the place of the first. *)
  Fixpoint parse_entries (fuel : nat) (t : text) : option (list (string * pyv K) * text) :=
    match fuel, t with
    | S f, q :: t =>
      if ceq q QUOTE || ceq q DQUOTE then
        match parse_str q t with
        | Some (s, r) =>
          match skip r with
          | ":" :: r =>
            match parse (S (length r)) (skip r) with
            | Some (v, r) =>
              match skip r with
              | "}" :: u => Some ([(t2s s, v)], u)
              | "," :: u => match parse_entries f (skip u) with Some (l, w) => Some ((t2s s, v) :: l, w) | None => None end
              | _ => None
              end
            | None => None
            end
          | _ => None
          end
        | None => None
        end
      else None
    | _, _ => None
    end.
  Definition parse_dict (t : text) : option (list (string * pyv K) * text) :=
    match t with
    | "{" :: r => match skip r with "}" :: u => Some ([], u) | r => parse_entries (length r) r end
    | _ => None
    end.
  Definition eval_dict (t : text) : res (dict K) :=
    match parse_dict t with
    | Some (l, r) =>
      match skip r with
      | [] => do es <- mmap (fun e => do x <- as_flt (snd e); Ok (fst e, x)) l; Ok (fold_left (fun d e => dset d (fst e) (snd e)) es [])
      | _ => Err ValueError
      end
    | None => Err ValueError
    end.

  (** Lists of integers and of pairs of integers *)
  Definition ints (l : list Z) : pyv K := PList (map PInt l).
  Definition as_int (v : pyv K) : res Z := match v with PInt z => Ok z | _ => Err TypeError end.
  Definition as_ints (v : pyv K) : res (list Z) := do l <- as_list v; mmap as_int l.
  Definition as_zmat (v : pyv K) : res (list (list Z)) := do l <- as_list v; mmap as_ints l.
  Definition as_cell (v : pyv K) : res (Z * Z) := do l <- as_ints v; match l with [i; j] => Ok (i, j) | _ => Err ValueError end.
  Definition as_cells (v : pyv K) : res (list (list (Z * Z))) := do l <- as_list v; mmap (fun v => do l <- as_list v; mmap as_cell l) l.

  (** jajapy/base/Parametric_Model.py:434-449 [_save] *)
  Definition parametric_save (m : pctmc K) : text :=
    line (s2t (pc_name m)) ++
    line (repr (PList (map (fun r => ints (map Z.of_nat r)) (pc_mat m)))) ++
    line (repr (strs (pc_lab m))) ++
    line (repr_dict (pc_val m)) ++
    line (repr (PList (map (fun l => PList (map (fun c => ints [fst c; snd c]) l)) (pc_ind m)))) ++
    line (repr (strs (pc_par m))) ++
    line (repr (strs (map show_expr (pc_expr m)))).
  (** jajapy/pctmc/PCTMC.py:369-383 [save]: nothing is written about the
      synchronous transitions. *)
  Definition pctmc_save (m : pctmc K * option (list (nat * string * nat * K))) : text :=
    line (s2t "PCTMC") ++ parametric_save (fst m).

  (** jajapy/base/Parametric_Model.py:461-474, jajapy/pctmc/PCTMC.py:433-459
      [loadPCTMC]: the constructor is called without synchronous transitions. *)
  Definition sympify (s : string) : res (expr K) := match read_expr s with Some e => Ok e | None => Err ValueError end.
  Definition loadPCTMC (file : text) : res (pctmc K * option (list (nat * string * nat * K))) :=
    let (h, t) := nextline (newlines file) in
    if negb (String.eqb (t2s h) "PCTMC") then Err ValueError
    else
      let (name, t) := nextline t in
      let (a, t) := nextline t in
      do matrix <- literal_eval a; do matrix <- as_zmat matrix;
      let (a, t) := nextline t in
      do labels <- literal_eval a; do labels <- as_strs labels;
      let (a, t) := nextline t in
      do values <- eval_dict a;
      let (a, t) := nextline t in
      do ind <- literal_eval a; do ind <- as_cells ind;
      let (a, t) := nextline t in
      do par <- literal_eval a; do par <- as_strs par;
      let (a, t) := nextline t in
      do es <- literal_eval a; do es <- as_strs es;
      do exprs <- mmap sympify es;
      do m <- PCTMC_new matrix labels exprs (map (fun p => (fst p, Some (snd p))) values) ind par (t2s name);
      Ok (m, None).
End PText.
