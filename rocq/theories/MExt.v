(** Real numbers with infinities and nan: numpy's arithmetic without rounding.

    The model is generic in its numbers (Num.v).  At [R] a division by 0 is an
    unspecified real; here it is what numpy returns (with a warning), so that the
    appearance of nan can be observed.  The sign of a zero is not kept: a division
    by 0 treats it as +0. *)
From Coq Require Import ZArith Reals Bool List.
From Verif Require Import Num MModels.
Import ListNotations.
Local Open Scope R_scope.

(** A finite number, +inf, -inf, nan. *)
Inductive xr := XF (x : R) | XP | XM | XN.

(** An infinity with the sign of [x]; [z] for 0. *)
Definition signed (x : R) (z : xr) : xr := if Rlt_dec 0 x then XP else if Rlt_dec x 0 then XM else z.
Definition xopp (a : xr) : xr := match a with XF x => XF (- x) | XP => XM | XM => XP | XN => XN end.
Definition xadd (a b : xr) : xr :=
  match a, b with
  | XN, _ | _, XN => XN
  | XF x, XF y => XF (x + y)
  | XP, XM | XM, XP => XN
  | XP, _ | _, XP => XP
  | XM, _ | _, XM => XM
  end.
Definition xmul (a b : xr) : xr :=
  match a, b with
  | XN, _ | _, XN => XN
  | XF x, XF y => XF (x * y)
  | XF x, XP | XP, XF x => signed x XN
  | XF x, XM | XM, XF x => xopp (signed x XN)
  | XP, XP | XM, XM => XP
  | XP, XM | XM, XP => XM
  end.
Definition xdiv (a b : xr) : xr :=
  match a, b with
  | XN, _ | _, XN => XN
  | XF x, XF y => if Req_EM_T y 0 then signed x XN else XF (x / y)
  | XF _, _ => XF 0
  | XP, XF y => signed y XP
  | XM, XF y => xopp (signed y XP)
  | _, _ => XN
  end.
Definition xleb (a b : xr) : bool :=
  match a, b with
  | XN, _ | _, XN => false
  | XF x, XF y => Rleb x y
  | XM, _ | _, XP => true
  | _, _ => false
  end.
Definition xeqb (a b : xr) : bool :=
  match a, b with
  | XF x, XF y => Reqb x y
  | XP, XP | XM, XM => true
  | _, _ => false
  end.
Definition XNum : Num xr := {|
  n0 := XF 0; n1 := XF 1; nadd := xadd; nmul := xmul; nsub := fun a b => xadd a (xopp b); ndiv := xdiv;
  nleb := xleb; neqb := xeqb; nofZ := fun z => XF (IZR z); nfloor := fun a => match a with XF x => Int_part x | _ => 0%Z end |}.
(** math.log, math.exp, numpy.sqrt.  Where math.log raises ValueError (0 and
    below) the functions of the model test their argument first. *)
Definition XTrans : Trans xr := {|
  nln := fun a => match a with XF x => XF (ln x) | XP => XP | _ => XN end;
  nexp := fun a => match a with XF x => XF (exp x) | XP => XP | XM => XF 0 | XN => XN end;
  nsqrt := fun a => match a with XF x => if Rlt_dec x 0 then XN else XF (sqrt x) | XP => XP | _ => XN end;
  npi := XF PI |}.

(** Models with finite numbers. *)
Definition xvec (v : list R) : list xr := map XF v.
Definition xmat (m : list (list R)) : list (list xr) := map xvec m.
Definition x_mc (m : mc R) : mc xr := mkMC (xmat (mc_mat m)) (mc_lab m) (xvec (mc_ini m)) (mc_name m).
Definition x_ctmc (m : ctmc R) : ctmc xr := mkCTMC (xmat (ct_mat m)) (ct_lab m) (xvec (ct_ini m)) (ct_name m).
Definition x_hmm (m : hmm R) : hmm xr := mkHMM (xmat (hmm_mat m)) (xmat (hmm_out m)) (hmm_alph m) (xvec (hmm_ini m)) (hmm_name m).
Definition x_mdp (m : mdp R) : mdp xr := mkMDP (map xmat (mdp_mat m)) (mdp_lab m) (mdp_act m) (xvec (mdp_ini m)) (mdp_name m).
