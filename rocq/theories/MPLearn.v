(** Learning of parametric CTMCs: jajapy/base/BW.py:219-248 ([fit]), 863-1197
    (one round) and 1199-1412 ([fit_parameters], [fit_nonInstantiatedParameters]).

    Simplifications: state ids are not negative; expressions are those of
    MPctmc.v, taken as sympy would write them (products flattened, arguments in
    the written order); the float16 and uint16 arrays hold exact integers; nan
    and inf are not modelled (division by a zero exit rate, [_h_tau_PCTMC]). *)
From Coq Require Import String ZArith Bool List.
From Verif Require Import Num Py MTools MSet MModels MCtor MLik MBW MPctmc.
Import ListNotations.
Local Open Scope num_scope.

Section PLearn.
  Context {K : Type} `{Num K} `{Trans K}.

  (** ** Shape of the rates *)

  (** [p in [x.name for x in a.free_symbols]] *)
  Definition has_sym (p : string) (e : expr K) : bool := memb String.eqb p (symbols e).

  (** base/BW.py:903-935 [_a_pi].  When no argument contains [p] the code prints
      a message and calls input(): without a terminal that is EOFError (with one,
      the loop never ends). *)
  Fixpoint a_pi (p : string) (e : expr K) : res nat :=
    match e with
    | EPow _ n => Ok n
    | EVar _ => Ok 1%nat
    | EConst _ => Err EOFError
    | EAdd a b | ESub a b | EMul a b =>
      if has_sym p a then a_pi p a else if has_sym p b then a_pi p b else Err EOFError
    end.

  (** The arguments of a product. *)
  Fixpoint factors (e : expr K) : list (expr K) :=
    match e with EMul a b => factors a ++ factors b | _ => [e] end.

  (** base/BW.py:965-972: product of the other arguments of the product holding
      [p].  The final float() raises TypeError when an argument is neither a
      number nor a symbol.  A symbol without value gives nan (here 0). *)
  Definition coef (vals : dict K) (p : string) (l : list (expr K)) : res K :=
    mfold (fun r a => match a with
                      | EVar x => Ok (if String.eqb x p then r else r * match dget vals x with Some v => v | None => n0 end)
                      | _ => match symbols a, eval vals a with [], Some v => Ok (r * v) | _, _ => Err TypeError end
                      end) l n1.

  (** base/BW.py:937-979 [_c_pi] (a - b is a + -1*b) *)
  Fixpoint c_pi (vals : dict K) (p : string) (e : expr K) : res K :=
    match e with
    | EMul _ _ => coef vals p (factors e)
    | EVar _ => Ok n1
    | EConst _ => Err EOFError
    | EPow a _ => if has_sym p a then c_pi vals p a else Err EOFError
    | EAdd a b => if has_sym p a then c_pi vals p a else if has_sym p b then c_pi vals p b else Err EOFError
    | ESub a b => if has_sym p a then c_pi vals p a else if has_sym p b then coef vals p (EConst (n0 - n1) :: factors b) else Err EOFError
    end.
End PLearn.

Section PLearn2.
  Context {K : Type} `{Num K} `{Trans K}.

  Definition pair_of (x : Z * Z) : nat * nat := (Z.to_nat (fst x), Z.to_nat (snd x)).
  (** The transitions listed for [p]. *)
  Definition places (m : pctmc K) (p : string) : list (nat * nat) := map pair_of (parameterIndexes m p).
  Definition expr_at (m : pctmc K) (x : nat * nat) : expr K := transitionExpression m (fst x) (snd x).

  (** A table from transitions to values, written in order: [t[s,ss] = v]; 0
      elsewhere. *)
  Definition peqb (x y : nat * nat) : bool := ((fst x =? fst y) && (snd x =? snd y))%nat.
  Definition table_get {V} (d : V) (t : list ((nat * nat) * V)) (x : nat * nat) : V :=
    match find (fun e => peqb (fst e) x) (rev t) with Some e => snd e | None => d end.

  (** What [_sortParameters] stores: the powers (one table per parameter), the
      three categories and the coefficients of the first one. *)
  Record plan := mkPlan { pl_a : list (list ((nat * nat) * nat)); pl_cat1 : list string; pl_cat2 : list string; pl_cat3 : list string;
                          pl_c : list ((nat * nat) * K) }.
  Definition a_get (m : pctmc K) (a : list (list ((nat * nat) * nat))) (p : string) (x : nat * nat) : nat :=
    match index_of String.eqb p (pc_par m) with Some k => table_get O (nth k a []) x | None => O end.

  (** base/BW.py:981-1001 [_C]; a symbol which is not a parameter raises
      ValueError ([list.index]) *)
  Definition C_of (m : pctmc K) (a : list (list ((nat * nat) * nat))) (x : nat * nat) : res nat :=
    mfold (fun r p => do _ <- index_err String.eqb p (pc_par m); Ok (r + a_get m a p x)%nat) (free_symbols (expr_at m x)) O.

  (** base/BW.py:873-877 *)
  Definition sort_a (m : pctmc K) (fixed : list string) : res (list (list ((nat * nat) * nat))) :=
    mmap (fun p => if memb String.eqb p fixed then Ok []
                   else mmap (fun x => do v <- a_pi p (expr_at m x); Ok (x, v)) (places m p)) (pc_par m).
  (** base/BW.py:879-889: [min] of an empty list raises ValueError *)
  Inductive category := Cat1 | Cat2 | Cat3.
  Definition all_eq (k : nat) (l : list nat) : bool := forallb (Nat.eqb k) l.
  Definition category_of (m : pctmc K) (a : list (list ((nat * nat) * nat))) (p : string) : res category :=
    let apis := map (a_get m a p) (places m p) in
    do cs <- mmap (C_of m a) (places m p);
    match cs with
    | [] => Err ValueError
    | c :: _ => Ok (if all_eq 1 apis && all_eq 1 cs then Cat1 else if all_eq c cs then Cat2 else Cat3)
    end.
  Definition is_cat (c : category) (x : string * category) : bool :=
    match c, snd x with Cat1, Cat1 | Cat2, Cat2 | Cat3, Cat3 => true | _, _ => false end.
  (** base/BW.py:863-895 [_sortParameters] *)
  Definition sortParameters (m : pctmc K) (fixed : list string) : res plan :=
    do a <- sort_a m fixed;
    do cats <- mmap (fun p => do c <- category_of m a p; Ok (p, c)) (filter (fun p => negb (memb String.eqb p fixed)) (pc_par m));
    let sel c := map fst (filter (is_cat c) cats) in
    do cs <- mmap (fun p => mmap (fun x => do v <- c_pi (pc_val m) p (expr_at m x); Ok (x, v)) (places m p)) (sel Cat1);
    Ok (mkPlan a (sel Cat1) (sel Cat2) (sel Cat3) (concat cs)).

  (** ** One trace *)

  (** A trace after [_splitTime] (680-703): observations, and dwell times if the
      trace is timed. *)
  Definition ptrace := (list string * option (list K))%type.

  (** base/BW.py:897-901 [_computeTaus_PCTMC]: the current rates; a rate without
      value cannot be stored in a float array (TypeError).  As a CTMC: the
      functions [_h_e_PCTMC], [_h_l_PCTMC], [_h_tau_PCTMC] (1003-1067) are those
      of this CTMC. *)
  Definition hval (m : pctmc K) : res (ctmc K) :=
    do mat <- mmap (fun s => mmap (fun ss => match evaluateTransition m s ss None with Some v => Ok v | None => Err TypeError end)
                                  (seq 0 (pc_n m))) (seq 0 (pc_n m));
    Ok (mkCTMC mat (pc_lab m) (pc_ini m) (pc_name m)).

  (** numpy's [x*y] on 1-D arrays: broadcasting of arrays of length 1, ValueError
      when the lengths differ. *)
  Definition bmul (x y : list K) : res (list K) :=
    if (length x =? length y)%nat then Ok (zipwith nmul x y)
    else match x, y with
         | [a], _ => Ok (map (fun b => a * b) y)
         | _, [b] => Ok (map (fun a => a * b) x)
         | _, _ => Err ValueError
         end.

  (** The four ways a BW object computes forward and backward values for these
      models: base/BW.py:1533-1636 and 577-678 ([_computeAlphas],
      [_computeAlphas_timed] and the betas, used by fit_parameters), 1492-1604 and
      529-650 (the [_matrix] versions, used by fit).  [KMdp]: left over from an
      earlier fit of an MDP. *)
  Inductive akind := KGeneric | KTimed | KMatrix | KTimedMatrix | KMdp.

  (** base/BW.py:544-553: the matrix tau of the [_matrix] versions *)
  Definition m_tau (h : ctmc K) (s ss : nat) : K :=
    if ct_e h s =? n0 then if (s =? ss)%nat then n1 else n0 else mget (ct_mat h) s ss / ct_e h s.
  (** base/BW.py:556-570 / 636-648, timed: [phi], then
      [alpha[t] = tau.T @ (phi[t-1]*alpha[t-1])] and
      [beta[t] = phi[t] * (tau @ beta[t+1])]; the last row of beta is dropped. *)
  Definition m_phi (h : ctmc K) (ot : string * K) (s : nat) : K :=
    if String.eqb (lab (ct_lab h) s) (fst ot) then ct_e h s * nexp (n0 - ct_e h s * snd ot) else n0.
  Definition m_ws (h : ctmc K) (obs : list string) (ts : list K) : list (nat -> nat -> K) :=
    map (fun ot ss s => m_phi h ot ss * m_tau h ss s) (combine (removelast obs) ts) ++
    [fun ss s => (if String.eqb (lab (ct_lab h) ss) (last obs EmptyString) then n1 else n0) * m_tau h ss s].

  (** Forward and backward matrices of a trace (rows are positions).  The untimed
      [_matrix] version takes one argument and is called with two; the timed ones
      subscript [times_seq], which is None for an untimed trace. *)
  Definition forward_backward (kind : akind) (h : ctmc K) (tr : ptrace) : res (list (list K) * list (list K)) :=
    let n := ct_n h in
    let (obs, ots) := tr in
    match kind, ots with
    | KGeneric, None =>
      let ws := map (fun o ss s => ct_tau h ss s o) obs in
      Ok (bw_alphas n (ct_ini h) ws, bw_betas n (vones n) ws)
    | KTimed, Some ts =>
      let ws := map (ct_w h) (combine (removelast obs) ts) in
      let mask := lab_mask n (ct_lab h) (last obs EmptyString) in
      Ok (mask_last mask (bw_alphas n (ct_ini h) ws), bw_betas n (zipwith nmul (vones n) mask) ws)
    | KTimedMatrix, Some ts =>
      let ws := m_ws h obs ts in
      Ok (bw_alphas n (ct_ini h) ws, removelast (bw_betas n (vones n) ws))
    | _, _ => Err TypeError
    end.

  (** [p] of base/BW.py:1084, 1100: density or probability of the move from s to
      ss, position by position *)
  Definition move_weights (h : ctmc K) (tr : ptrace) (x : nat * nat) : list K :=
    let (s, ss) := x in
    match snd tr with
    | Some ts => map (fun ot => ct_l h s ss (fst ot) * nexp (n0 - ct_e h s * snd ot)) (combine (fst tr) ts)
    | None => map (fun o => ct_l h s ss o / ct_e h s) (fst tr)
    end.
  (** [dot(alpha[s][:-1]*p*beta[ss][1:], f).sum()] *)
  Definition moves (alphas betas : list (list K)) (p : list K) (f : K) (x : nat * nat) : res K :=
    do y <- bmul (col_init alphas (fst x)) p;
    do z <- bmul y (col_tail betas (snd x));
    Ok (nsum (map (fun v => v * f) z)).
  (** [dot(alpha[s][:-1]*beta[s][:-1]*times_seq, f).sum()], without the times for
      an untimed trace *)
  Definition stay (alphas betas : list (list K)) (ots : option (list K)) (f : K) (s : nat) : res K :=
    do y <- bmul (col_init alphas s) (col_init betas s);
    do z <- match ots with Some ts => bmul y ts | None => Ok y end;
    Ok (nsum (map (fun v => v * f) z)).

  (** [.sum()] of the results over the transitions of a parameter *)
  Definition acc2 (f : nat * nat -> res (K * K)) (l : list (nat * nat)) : res (K * K) :=
    mfold (fun r x => do dn <- f x; Ok (fst r + fst dn, snd r + snd dn)) l (n0, n0).

  (** base/BW.py:1099-1114, one parameter of the first category: [den_cat1],
      [num_cat1] *)
  Definition work1 (h : ctmc K) (pl : plan) (alphas betas : list (list K)) (tr : ptrace) (times : Z) (proba : K) (x : nat * nat) : res (K * K) :=
    let p := move_weights h tr x in
    if n0 <? nsum p then
      let c := table_get n0 (pl_c pl) x in
      do d <- stay alphas betas (snd tr) (match snd tr with Some _ => c * nofZ times / proba
                                                          | None => c * nofZ times / (ct_e h (fst x) * proba) end) (fst x);
      do n <- moves alphas betas p (nofZ times / proba) x;
      Ok (d, n)
    else Ok (n0, n0).
  (** 1117-1127, second category *)
  Definition work2 (m : pctmc K) (h : ctmc K) (pl : plan) (alphas betas : list (list K)) (tr : ptrace) (times : Z) (proba : K) (q : string) (x : nat * nat)
    : res (K * K) :=
    let p := move_weights h tr x in
    let a := nofnat (a_get m (pl_a pl) q x) in
    let r := mget (ct_mat h) (fst x) (snd x) in
    do d <- stay alphas betas (snd tr) (match snd tr with Some _ => a * r * nofZ times / proba
                                                        | None => a * r * nofZ times / (proba * ct_e h (fst x)) end) (fst x);
    do n <- moves alphas betas p (a * nofZ times / proba) x;
    Ok (d, n).
  (** 1130-1147, third category: the coefficients of a polynomial.  When the
      parameter is 0 the coefficient is 0/0 = nan and polyroots raises LinAlgError
      in the update (here ValueError, at once). *)
  Definition add_at (t : list K) (c : nat) (v : K) : list K :=
    let t := t ++ repeat n0 (1 + c - length t) in upd t c (nth c t n0 + v).
  Definition work3 (m : pctmc K) (h : ctmc K) (pl : plan) (alphas betas : list (list K)) (tr : ptrace) (times : Z) (proba : K) (q : string)
      (t : list K) (x : nat * nat) : res (list K) :=
    let p := move_weights h tr x in
    let a := nofnat (a_get m (pl_a pl) q x) in
    let r := mget (ct_mat h) (fst x) (snd x) in
    do n <- moves alphas betas p (a * nofZ times / proba) x;
    let t := upd t 0 (nth 0 t n0 - n) in
    do c <- C_of m (pl_a pl) x;
    do d <- stay alphas betas (snd tr) (a * r * nofZ times / proba) (fst x);
    match dget (pc_val m) q with
    | None => Err KeyError
    | Some v => if npow v c =? n0 then Err ValueError
                else Ok (add_at t c (match snd tr with Some _ => d / npow v c | None => d / (ct_e h (fst x) * npow v c) end))
    end.

  (** base/BW.py:1078-1095: the constant rates of [transition_expr[1:]]; position
      of the first use of the k-th expression (IndexError if none) *)
  Definition first_use (m : pctmc K) (k : nat) : res (nat * nat) :=
    match find (fun x => (nth (snd x) (nth (fst x) (pc_mat m) []) O =? k)%nat) (list_prod (seq 0 (pc_n m)) (seq 0 (pc_n m))) with
    | Some x => Ok x
    | None => Err IndexError
    end.
  Definition work_cste (m : pctmc K) (h : ctmc K) (alphas betas : list (list K)) (tr : ptrace) (times : Z) (proba : K) (k : nat) : res (option (K * K)) :=
    match symbols (nth k (pc_expr m) (EConst n0)) with
    | _ :: _ => Ok None
    | [] =>
      do x <- first_use m k;
      do d <- stay alphas betas (snd tr) (nofZ times / proba) (fst x);
      do n <- moves alphas betas (move_weights h tr x) (nofZ times / proba) x;
      Ok (Some (d, n))
    end.

  Record stat_pc := mkStatPC { sp_cste : list (option (K * K)); sp_1 : list (K * K); sp_2 : list (K * K); sp_3 : list (list K);
                               sp_proba : K; sp_times : Z }.

  (** base/BW.py:1069-1150 [_processWork_PCTMC].  [_splitTime] reads the second
      element of the sequence (IndexError). *)
  Definition processWork_PCTMC (kind : akind) (update_constant : bool) (m : pctmc K) (h : ctmc K) (pl : plan) (tr : ptrace) (times : Z)
    : res (option stat_pc) :=
    if (length (fst tr) <? 2)%nat then Err IndexError
    else
      do ab <- forward_backward kind h tr;
      let (alphas, betas) := ab in
      let proba := proba_of alphas in
      if proba =? n0 then Ok None
      else
        do cs <- if update_constant then mmap (work_cste m h alphas betas tr times proba) (seq 1 (length (pc_expr m) - 1)) else Ok [];
        do s1 <- mmap (fun q => acc2 (work1 h pl alphas betas tr times proba) (places m q)) (pl_cat1 pl);
        do s2 <- mmap (fun q => acc2 (work2 m h pl alphas betas tr times proba q) (places m q)) (pl_cat2 pl);
        do s3 <- mmap (fun q => mfold (work3 m h pl alphas betas tr times proba q) (places m q) [n0]) (pl_cat3 pl);
        Ok (Some (mkStatPC cs s1 s2 s3 proba times)).

  (** ** The update *)

  Definition padd (x y : K * K) : K * K := (fst x + fst y, snd x + snd y).
  Definition psum_all (l : list (list (K * K))) : list (K * K) :=
    match l with [] => [] | x :: r => fold_left (fun a b => zipwith padd a b) r x end.

  (** base/BW.py:1174-1178: [num/den], or the current value when [den] is 0
      (KeyError when there is none) *)
  Definition new_value1 (m : pctmc K) (q : string) (dn : K * K) : res K :=
    if fst dn =? n0 then match dget (pc_val m) q with Some v => Ok (v / n1) | None => Err KeyError end else Ok (snd dn / fst dn).
  (** [x**(1/c)] for x >= 0 *)
  Definition root (x : K) (c : nat) : K := if x =? n0 then n0 else nexp (nln x / nofnat c).
  (** 1180-1189; [1/c] raises ZeroDivisionError when c is 0 *)
  Definition new_value2 (m : pctmc K) (pl : plan) (q : string) (dn : K * K) : res K :=
    match dget (pc_val m) q with
    | None => Err KeyError
    | Some v =>
      if fst dn =? n0 then Ok (v / n1)
      else match places m q with
           | [] => Err IndexError
           | x :: _ => do c <- C_of m (pl_a pl) x;
                       if (c =? 0)%nat then Err ZeroDivisionError else Ok (v * root (snd dn) c / root (fst dn) c)
           end
    end.

  (** 1165-1172: new constants *)
  Definition new_cste (e : expr K) (dn : option (K * K)) : expr K :=
    match dn with Some (d, n) => if d =? n0 then e else EConst (n / d) | None => e end.
  Definition cadd (x y : option (K * K)) : option (K * K) := match x, y with Some a, Some b => Some (padd a b) | _, _ => None end.
  Definition csum_all (l : list (list (option (K * K)))) : list (option (K * K)) :=
    match l with [] => [] | x :: r => fold_left (fun a b => zipwith cadd a b) r x end.

  (** base/BW.py:1152-1197 [_update_PCTMC].  [maxroot] is
      [max(polyroots(coefficients))], see C115.  With no result [len(den)] raises
      TypeError.  The value returned by [instantiate] is ignored. *)
  Definition update_PCTMC (maxroot : list K -> res K) (update_constant : bool) (m : pctmc K) (pl : plan) (temp : list (option stat_pc)) : res (pctmc K * K) :=
    do temp <- unwrap temp;
    match temp with
    | [] => Err TypeError
    | _ =>
      let ll := log_lik (map (fun t => (sp_proba t, sp_times t)) temp) in
      let exprs := match pc_expr m with
                   | e0 :: es => if update_constant then e0 :: zipwith new_cste es (csum_all (map sp_cste temp)) else e0 :: es
                   | [] => []
                   end in
      let m := mkPC (pc_mat m) (pc_lab m) exprs (pc_val m) (pc_ind m) (pc_par m) (pc_ini m) (pc_name m) in
      do v1 <- mmap (fun qd => new_value1 m (fst qd) (snd qd)) (combine (pl_cat1 pl) (psum_all (map sp_1 temp)));
      do v2 <- mmap (fun qd => new_value2 m pl (fst qd) (snd qd)) (combine (pl_cat2 pl) (psum_all (map sp_2 temp)));
      do v3 <- mmap maxroot (msum_all (map sp_3 temp));
      Ok (snd (instantiate m (pl_cat1 pl ++ pl_cat2 pl ++ pl_cat3 pl) (v1 ++ v2 ++ v3)), ll)
    end.

  (** base/BW.py:1641-1649 with workers that may raise *)
  Definition run_workers {S T} (processes : nat) (work : S -> Z -> res (option T)) (set : list (S * Z)) : res (list (option T)) :=
    do results <- mmap (fun st => work (fst st) (snd st)) set;
    Ok (if (1 <? processes)%nat then filter (fun r => match r with Some _ => true | None => false end) results else results).

  (** One iteration of base/BW.py:294-296 *)
  Definition round_PCTMC (maxroot : list K -> res K) (kind : akind) (update_constant : bool) (processes : nat) (pl : plan) (set : list (ptrace * Z)) (m : pctmc K)
    : res (pctmc K * K) :=
    do h <- hval m;
    do temp <- run_workers processes (processWork_PCTMC kind update_constant m h pl) set;
    update_PCTMC maxroot update_constant m pl temp.

  (** ** fit_parameters *)

  (** [delete(v,s)], [l[:s]+l[s+1:]] *)
  Definition remove_nth {A} (s : nat) (l : list A) : list A := firstn s l ++ skipn (Datatypes.S s) l.
  (** base/BW.py:1362-1371: an id after the removal of state [s] *)
  Definition dec (s i : Z) : Z := if (s <? i)%Z then (i - 1)%Z else i.
  Definition remove_indexes (s : Z) (l : list (Z * Z)) : list (Z * Z) :=
    map (fun x => (dec s (fst x), dec s (snd x))) (filter (fun x => negb ((fst x =? s) || (snd x =? s))%Z) l).
  (** 1355-1371 *)
  Definition remove_state (m : pctmc K) (s : nat) : pctmc K :=
    mkPC (map (remove_nth s) (remove_nth s (pc_mat m))) (remove_nth s (pc_lab m)) (pc_expr m) (pc_val m)
         (map (remove_indexes (Z.of_nat s)) (pc_ind m)) (pc_par m) (remove_nth s (pc_ini m)) (pc_name m).
  (** 1352-1373: remove the first state whose label is not in the alphabet and
      start again from state 0 *)
  Fixpoint first_unused (alphabet : list string) (labels : list string) (i : nat) : option nat :=
    match labels with
    | [] => None
    | l :: ls => if memb String.eqb l alphabet then first_unused alphabet ls (Datatypes.S i) else Some i
    end.
  Fixpoint remove_unused (fuel : nat) (alphabet : list string) (m : pctmc K) : pctmc K :=
    match fuel, first_unused alphabet (pc_lab m) 0 with
    | Datatypes.S f, Some s => remove_unused f alphabet (remove_state m s)
    | _, _ => m
    end.
  (** 1374-1383: remove the expressions no longer used *)
  Definition used_expr (m : pctmc K) (t : nat) : bool := existsb (existsb (Nat.eqb t)) (pc_mat m).
  Definition remove_expr (m : pctmc K) (t : nat) : pctmc K :=
    mkPC (map (map (fun k => if (t <? k)%nat then (k - 1)%nat else k)) (pc_mat m)) (pc_lab m) (remove_nth t (pc_expr m)) (pc_val m)
         (pc_ind m) (pc_par m) (pc_ini m) (pc_name m).
  Fixpoint remove_exprs (fuel t : nat) (m : pctmc K) : pctmc K :=
    match fuel with
    | O => m
    | Datatypes.S f =>
      if (t <? length (pc_expr m))%nat then
        if used_expr m t then remove_exprs f (Datatypes.S t) m else remove_exprs f t (remove_expr m t)
      else m
    end.
  Definition prune (alphabet : list string) (m : pctmc K) : pctmc K :=
    let m := remove_unused (length (pc_lab m)) alphabet m in remove_exprs (length (pc_expr m)) 1 m.

  (** The attributes of a BW object read before being set by fit_parameters:
      [verbose] and [processes] (set by [fit] only), and the functions computing
      the forward and backward values. *)
  Record bwobj := mkBW { ob_verbose : bool; ob_processes : option nat; ob_kind : akind }.
  (** base/BW.py:16-23 *)
  Definition fresh : bwobj := mkBW false None KGeneric.

  (** base/BW.py:278-325 [_bw] on this object: reading [self.verbose], and
      [self.processes] in the first round, raises AttributeError when unset.
      [max_it] is the bound on the number of rounds. *)
  Definition bw_PCTMC (ob : bwobj) (maxroot : list K -> res K) (update_constant : bool) (pl : plan) (set : list (ptrace * Z)) (eps : K) (max_it : nat) (m : pctmc K)
    : res (pctmc K * nat * option K * bool) :=
    if negb (ob_verbose ob) then Err AttributeError
    else bw_loop (fun m => match ob_processes ob with
                           | None => Err AttributeError
                           | Some p => round_PCTMC maxroot (ob_kind ob) update_constant p pl set m
                           end) eps max_it None 0 m.

  (** A training set: timed or not. *)
  Inductive traces := Timed (l : list (@timed K * Z)) | Untimed (l : list (list string * Z)).
  Definition alphabet_of (ts : traces) : list string :=
    dedup String.eqb match ts with Timed l => flat_map (fun x => fst (fst x)) l | Untimed l => flat_map fst l end.
  (** base/BW.py:1434-1462 [_getTrainingSet]: 'init' is put at the front of every
      sequence when it is not in the alphabet.  A timed sequence then starts with
      two labels and is no longer read as timed: with [_computeAlphas_timed] this
      is a TypeError, as for an untimed trace (hence [None]). *)
  Definition training_of (ts : traces) : list (ptrace * Z) :=
    let has := memb String.eqb "init"%string (alphabet_of ts) in
    match ts with
    | Timed l => map (fun x => if has then ((fst (fst x), Some (snd (fst x))), snd x) else (("init"%string :: fst (fst x), None), snd x)) l
    | Untimed l => map (fun x => ((if has then fst x else "init"%string :: fst x, None), snd x)) l
    end.

  (** base/BW.py:1264-1412 [fit_parameters]: the result (parameters and values)
      or the exception, and the model object given by the caller after the call
      (when a round raises, the values stored by the previous rounds are not
      tracked: the model shown is the one before the rounds).
      [rnd] is the call of randomInstantiation (1387-1393), None if it does not
      end. *)
  Definition fit_parameters (ob : bwobj) (maxroot : list K -> res K) (ts : traces) (m : pctmc K) (to_update : list string) (eps : K) (max_it : nat)
      (rnd : pctmc K -> option (pctmc K)) : option (res (list (string * option K)) * pctmc K) :=
    let fixed := filter (fun p => negb (memb String.eqb p to_update)) (pc_par m) in
    if negb (forallb (fun p => memb String.eqb p (pc_par m)) to_update) then Some (Err RuntimeError, m)
    else
      let m := prune (alphabet_of ts) m in
      match rnd m with
      | None => None
      | Some m =>
        let ob := mkBW (ob_verbose ob) (ob_processes ob) match ts with Timed _ => KTimed | Untimed _ => ob_kind ob end in
        Some match sortParameters m fixed with
             | Err e => (Err e, m)
             | Ok pl =>
               match bw_PCTMC ob maxroot false pl (training_of ts) eps max_it m with
               | Err e => (Err e, m)
               | Ok (m', _, _, _) => (Ok (map (fun p => (p, parameterValue m' p)) to_update), m')
               end
             end
      end.
  (** base/BW.py:1199-1262 [fit_nonInstantiatedParameters]: all the parameters are
      given as parameters to update *)
  Definition fit_nonInstantiatedParameters (ob : bwobj) (maxroot : list K -> res K) (ts : traces) (m : pctmc K) (eps : K) (max_it : nat)
      (rnd : pctmc K -> option (pctmc K)) : option (res (list (string * option K)) * pctmc K) :=
    fit_parameters ob maxroot ts m (pc_par m) eps max_it rnd.

  (** ** fit on a PCTMC *)

  (** base/BW.py:26-172, 219-248: [fixed_parameters] is False by default ([None]),
      and [param in False] raises TypeError; then [fit] sets verbose and
      processes.  Only the result is returned (the training set is the list of
      its sequences, after [_getTrainingSet]). *)
  Definition fit_PCTMC (maxroot : list K -> res K) (processes : nat) (ts : traces) (m : pctmc K) (fixed : option (list string)) (update_constant : bool)
      (eps : K) (max_it : nat) (rnd : pctmc K -> option (pctmc K)) : option (res (pctmc K)) :=
    match rnd m with
    | None => None
    | Some m =>
      Some (do pl <- match fixed with
                     | Some f => sortParameters m f
                     | None => match pc_par m with [] => sortParameters m [] | _ => Err TypeError end
                     end;
            do r <- bw_PCTMC (mkBW true (Some processes) match ts with Timed _ => KTimedMatrix | Untimed _ => KMatrix end)
                             maxroot update_constant pl (training_of ts) eps max_it m;
            Ok (fst (fst (fst r))))
    end.
End PLearn2.
Arguments plan K : clear implicits.
Arguments ptrace K : clear implicits.
Arguments traces K : clear implicits.
