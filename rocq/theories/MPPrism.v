(** savePrism for parametric CTMCs: jajapy/pctmc/PCTMC.py:385-430. *)
From Coq Require Import String Ascii ZArith Bool List.
From Verif Require Import Num Py MTools MModels MText MPrism MPctmc MPText.
Import ListNotations.
Local Open Scope char_scope.

Section PPrism.
  Context {K : Type} `{NK : Num K} `{TK : Text K} `{SK : Sym K}.

  (** [t.replace('**','^')] *)
  Fixpoint caret (t : text) : text :=
    match t with
    | "*" :: "*" :: r => "^" :: caret r
    | c :: r => c :: caret r
    | [] => []
    end.

  (** 398-402: one constant per parameter, with its value if it has one *)
  Definition const_line (m : pctmc K) (p : string) : text :=
    s2t "const double " ++ s2t p ++ (if inst_param m p then match parameterValue m p with Some v => s2t " = " ++ s2t (show v) | None => [] end else []) ++ s2t ";" ++ [NL].

  (** where(row != 0)[0], each index with its value *)
  Fixpoint refs (i : nat) (row : list nat) : list (nat * nat) :=
    match row with
    | [] => []
    | k :: r => if (k =? 0)%nat then refs (S i) r else (i, k) :: refs (S i) r
    end.
  (** 409-415 *)
  Definition rate_text (m : pctmc K) (k : nat) : text := caret (s2t (show_expr (nth k (pc_expr m) (EConst n0)))).
  Definition pcommand (m : pctmc K) (s1 : nat) : text :=
    let row := nth s1 (pc_mat m) [] in
    if existsb (fun k => negb (k =? 0)%nat) row then
      let res := s2t "	[] s=" ++ show_nat s1 ++ s2t " ->" ++
        flat_map (fun sk => s2t " " ++ rate_text m (snd sk) ++ s2t " : (s'=" ++ show_nat (fst sk) ++ s2t ") +") (refs 0 row) in
      firstn (length res - 2) res ++ s2t ";" ++ [NL]
    else [].

  (** 395-430.  An exception leaves a partial file behind, which is not
      modelled. *)
  Definition pctmc_savePrism (m : pctmc K) : res text :=
    do i <- first_one 0 (pc_ini m);
    Ok (s2t "ctmc" ++ [NL; NL] ++ flat_map (const_line m) (pc_par m) ++ [NL] ++ s2t "module " ++ s2t (pc_name m) ++ [NL] ++
        s2t "	s: [0.." ++ show_nat (pc_n m) ++ s2t "] init " ++ show_nat i ++ s2t ";" ++ [NL; NL] ++
        flat_map (pcommand m) (seq 0 (pc_n m)) ++ s2t "endmodule" ++ [NL; NL] ++ flat_map label_line (label_table (pc_lab m))).
End PPrism.
