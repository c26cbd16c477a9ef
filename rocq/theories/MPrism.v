(** savePrism. *)
From Coq Require Import String Ascii ZArith Bool List.
From Verif Require Import Num Py MTools MSet MModels MCtor MText.
Import ListNotations.
Local Open Scope char_scope.

Section Prism.
  Context {K : Type} `{TK : Text K} `{NK : Num K}.

  Definition show_nat (n : nat) : text := show_int (Z.of_nat n).
  Definition nonzero (x : K) : bool := negb (neqb x n0).

  (** where(self.initial_state==1.0)[0][0] *)
  Fixpoint first_one (i : nat) (ini : list K) : res nat :=
    match ini with
    | [] => Err IndexError
    | x :: r => if neqb x n1 then Ok i else first_one (S i) r
    end.

  (** where(row != 0.0)[0], each index with its value *)
  Fixpoint support (i : nat) (row : list K) : list (nat * K) :=
    match row with
    | [] => []
    | x :: r => if nonzero x then (i, x) :: support (S i) r else support (S i) r
    end.

  (** jajapy/mc/MC.py:187-195, jajapy/ctmc/CTMC.py:310-318, jajapy/mdp/MDP.py:310-319:
      one command.  [res[:-2]] is the text without its last two characters. *)
  Definition command (a : string) (s1 : nat) (row : list K) : text :=
    if existsb nonzero row then
      let res := s2t "	[" ++ s2t a ++ s2t "] s=" ++ show_nat s1 ++ s2t " ->" ++
        flat_map (fun sx => s2t " " ++ s2t (show (snd sx)) ++ s2t ":(s'=" ++ show_nat (fst sx) ++ s2t ") +") (support 0 row) in
      firstn (length res - 2) res ++ s2t ";" ++ [NL]
    else [].

  Definition prism_rows (n : nat) (m : list (list K)) : text :=
    flat_map (fun s => command EmptyString s (nth s m [])) (seq 0 n).
  Definition prism_rows_mdp (n : nat) (acts : list string) (m : list (list (list K))) : text :=
    flat_map (fun s => flat_map (fun ia => command (snd ia) s (nth (fst ia) (nth s m []) [])) (combine (seq 0 (length acts)) acts)) (seq 0 n).

  (** jajapy/base/Base_MC.py:108-114: the dictionary from labels to states, in
      order of insertion *)
  Fixpoint add_label (l : string) (s : nat) (d : list (string * list nat)) : list (string * list nat) :=
    match d with
    | [] => [(l, [s])]
    | (k, v) :: r => if String.eqb k l then (k, v ++ [s]) :: r else (k, v) :: add_label l s r
    end.
  Definition label_table (labels : list string) : list (string * list nat) :=
    fold_left (fun d sl => if String.eqb (snd sl) "init" then d else add_label (snd sl) (fst sl) d) (combine (seq 0 (length labels)) labels) [].

  (** jajapy/base/Base_MC.py:115-120 *)
  Definition label_line (ls : string * list nat) : text :=
    let res := s2t "label """ ++ s2t (fst ls) ++ s2t """ =" ++ flat_map (fun s => s2t " s=" ++ show_nat s ++ s2t " |") (snd ls) in
    firstn (length res - 1) res ++ s2t ";" ++ [NL].

  (** jajapy/base/Base_MC.py:102-121.  An exception leaves a partial file
      behind, which is not modelled. *)
  Definition base_prism (kind name : string) (labels : list string) (ini : list K) (rows : text) : res text :=
    do i <- first_one 0 ini;
    Ok (s2t kind ++ [NL; NL] ++ s2t "module " ++ s2t name ++ [NL] ++
        s2t "	s: [0.." ++ show_int (Z.of_nat (length labels) - 1) ++ s2t "] init " ++ show_nat i ++ s2t ";" ++ [NL; NL] ++
        rows ++ s2t "endmodule" ++ [NL; NL] ++ flat_map label_line (label_table labels)).

  (** jajapy/mc/MC.py:175-185 *)
  Definition mc_savePrism (m : mc K) : res text :=
    base_prism "dtmc" (mc_name m) (mc_lab m) (mc_ini m) (prism_rows (length (mc_lab m)) (mc_mat m)).
  (** jajapy/ctmc/CTMC.py:298-308 *)
  Definition ctmc_savePrism (m : ctmc K) : res text :=
    base_prism "ctmc" (ct_name m) (ct_lab m) (ct_ini m) (prism_rows (length (ct_lab m)) (ct_mat m)).
  (** jajapy/mdp/MDP.py:298-308 *)
  Definition mdp_savePrism (m : mdp K) : res text :=
    base_prism "mdp" (mdp_name m) (mdp_lab m) (mdp_ini m) (prism_rows_mdp (length (mdp_lab m)) (mdp_act m) (mdp_mat m)).
End Prism.
