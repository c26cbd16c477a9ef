(** str(model) for parametric CTMCs. *)
From Coq Require Import String Ascii ZArith Bool List.
From Verif Require Import Num Py MTools MSet MModels MCtor MText MPrism MPctmc MPText MPrint.
Import ListNotations.
Local Open Scope char_scope.

Section PPrint.
  Context {K : Type} `{NK : Num K} `{TK : Text K} `{RK : Round K} `{SK : Sym K}.

  (** jajapy/base/Parametric_Model.py:353-370 [__str__].  There are no nan among
      the values of parameters (MPctmc.v). *)
  Definition parametric_str (name : string) (values : dict K) (ini : list K) (states : nat) (state_str : nat -> text) : text :=
    let res := s2t "Name: " ++ s2t name ++ [NL] in
    let res := res ++ flat_map (fun pv => s2t (fst pv) ++ s2t " = " ++ s2t (show (nround 5 (snd pv))) ++ [NL]) values in
    let res := res ++ [NL] in
    let res :=
      match first_one 0 ini with
      | Ok i => res ++ s2t "Initial state: s" ++ show_nat i ++ [NL]
      | Err _ =>
        let res := res ++ s2t "Initial state: " in
        let res := res ++ flat_map (fun ix => if nleb (ndiv (nofZ 1) (nofZ 1000)) (snd ix)
                                              then s2t "s" ++ show_nat (fst ix) ++ s2t ": " ++ s2t (show (nround 3 (snd ix))) ++ s2t ", " else []) (indexed ini) in
        firstn (length res - 2) res ++ [NL]
      end in
    res ++ flat_map (fun s => state_str s ++ [NL]) (seq 0 states) ++ [NL].

  (** jajapy/base/Parametric_Model.py:126-147 [transitionValue]: a number of
      sympy, or an expression ([None]) *)
  Definition transitionValue (m : pctmc K) (i j : nat) : option K := eval (pc_val m) (transitionExpression m i j).

  (** jajapy/pctmc/PCTMC.py:260-270 [_stateToString].  [sym_text x] is the text
      of [round(x,5)] for a number of sympy; it can differ from that of a float.
      [round(inf,5)] is inf. *)
  Definition pc_rate_str (sym_text : K -> string) (m : pctmc K) (s j : nat) : string :=
    let e := show_expr (transitionExpression m s j) in
    match inst_state m s (Some j), involvedParameters m s (Some j), transitionValue m s j with
    | Ok true, _ :: _, Some v => (e ++ " (=" ++ sym_text v ++ ")")%string
    | _, _, _ => e
    end.
  Definition pc_state_str (sym_text : K -> string) (m : pctmc K) (s : nat) : text :=
    state_title (pc_lab m) s ++
    match inst_state m s None, pc_expected_time m s with
    | Ok true, Ok (Fin x) => s2t "Exepected waiting time: " ++ s2t (show (nround 5 x)) ++ [NL]
    | Ok true, Ok Inf => s2t "Exepected waiting time: " ++ s2t "inf" ++ [NL]
    | _, _ => []
    end ++
    flat_map (fun jk => if (snd jk =? 0)%nat then [] else
        s2t "s" ++ show_nat s ++ s2t " -> s" ++ show_nat (fst jk) ++ s2t " : lambda = " ++ s2t (pc_rate_str sym_text m s (fst jk)) ++ [NL])
      (indexed (nth s (pc_mat m) [])).
  Definition pc_str (sym_text : K -> string) (m : pctmc K) : text :=
    parametric_str (pc_name m) (pc_val m) (pc_ini m) (pc_n m) (pc_state_str sym_text m).
End PPrint.
