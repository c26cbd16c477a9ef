(** Synchronous composition of PCTMCs.  Structural model of
    jajapy/pctmc/PCTMC.py:548-752.  The rates of the synchronous transitions are
    numbers, as documented (with parameters the code mixes strings and sympy
    symbols in parameter_str).  [list(set(...))] of the parameter names is an
    argument.  Expressions are compared structurally. *)
From Coq Require Import String ZArith Bool Arith List.
From Verif Require Import Num Py MTools MSet MModels MCtor MPctmc MCompose.
Import ListNotations.
Local Open Scope num_scope.

Section PCompose.
  Context {K : Type} `{Num K}.
  Notation sync := (nat * string * nat * K)%type.

  (** "if not expr in trans_expr: trans_expr.append(expr)" and
      trans_expr.index(expr) *)
  Definition find_or_add (te : list (expr K)) (e : expr K) : list (expr K) * nat :=
    match index_of expr_eqb e te with Some k => (te, k) | None => (te ++ [e], length te) end.
  (** matrix[x,y] = t: the entries are 16-bit *)
  Definition put16 (m : list (list nat)) (x y t : nat) : list (list nat) := mat_set m x y (N.to_nat (N.of_nat t mod 65536)%N).

  (** 660-673: one turn of the loops of [add_in_matrix]; [p_i[ind]] raises
      IndexError for a parameter that was not declared *)
  Definition put_cell16 (t : nat) (inds : list nat) (b : build K) (x y : nat) : res (build K) :=
    do pi <- mfold (fun pi ind => if (ind <? length pi)%nat then Ok (upd pi ind (nth ind pi [] ++ [(x, y)])) else Err IndexError) inds (b_pi b);
    Ok (mkB (put16 (b_mat b) x y t) (b_te b) (b_ps b) (b_pv b) pi).
  Definition add_in_matrix16 (ids1 ids2 : list nat) (t s1 s2 : nat) (first : bool) (inds : list nat) (b : build K) : res (build K) :=
    if first then
      mfold (fun b i => do x <- state_index ids1 ids2 s1 i; do y <- state_index ids1 ids2 s2 i; put_cell16 t inds b x y) ids2 b
    else
      mfold (fun b i => do x <- state_index ids1 ids2 i s1; do y <- state_index ids1 ids2 i s2; put_cell16 t inds b x y) ids1 b.
  (** 674-687 [add_transition] *)
  Definition add_names (ps : list string) (names : list string) : list string * list nat :=
    fold_left (fun (st : list string * list nat) p => let (ps, inds) := st in
                 match index_of String.eqb p ps with Some k => (ps, inds ++ [k]) | None => (ps ++ [p], inds ++ [length ps]) end)
              names (ps, []).
  Definition add_transition (ids1 ids2 : list nat) (m : pctmc K) (first : bool) (b : build K) (ij : nat * nat) : res (build K) :=
    let (i, j) := ij in
    let e := transitionExpression m i j in
    let (te, t) := find_or_add (b_te b) e in
    let (ps, inds) := add_names (b_ps b) (involvedParameters m i (Some j)) in
    add_in_matrix16 ids1 ids2 t i j first inds (mkB (b_mat b) te ps (b_pv b) (b_pi b)).
  (** 709-716: states where both models have a self loop *)
  Definition ref (m : pctmc K) (i j : nat) : nat := nth j (nth i (pc_mat m) []) O.
  Definition add_loop16 (ids1 ids2 : list nat) (m1 m2 : pctmc K) (b : build K) (ij : nat * nat) : res (build K) :=
    let (i, j) := ij in
    if ((ref m1 i i =? 0)%nat || (ref m2 j j =? 0)%nat)%bool then Ok b
    else
      let (te, t) := find_or_add (b_te b) (EAdd (transitionExpression m1 i i) (transitionExpression m2 j j)) in
      do x <- state_index ids1 ids2 i j;
      Ok (mkB (put16 (b_mat b) x x t) te (b_ps b) (b_pv b) (b_pi b)).
  (** 717-723, 689-698 *)
  Definition sync_trans (ids1 ids2 : list nat) (sync1 sync2 : list sync) : res (list sync) :=
    mfold (fun acc t =>
      let '(si, ai, di, pi, (sj, aj, dj, pj)) := t in
      if String.eqb ai aj then
        do x <- state_index ids1 ids2 si sj;
        do y <- state_index ids1 ids2 di dj;
        Ok (acc ++ [(x, ai, y, pi * pj)])
      else Ok acc) (list_prod sync1 sync2) [].
  (** 728-743: a symbolic value cannot be stored in the array of numbers *)
  Definition init_trans16 (m : pctmc K) (inits ids : list nat) : res (list K) :=
    mfold (fun v i =>
      do row <- mmap (fun j => match evaluateTransition m i j None with Some x => Ok x | None => Err TypeError end) ids;
      Ok (zipwith (fun a x => if n0 <? a * x then a * x else a + x) v row)) inits (vzeros (length ids)).
  (** 744-750 *)
  Definition add_init16 (ids1 ids2 : list nat) (v1 v2 : list K) (b : build K) (ij : nat * nat) : res (build K) :=
    let (i, j) := ij in
    let lst := (length (b_mat b) - 1)%nat in
    do y <- state_index ids1 ids2 i j;
    if nth i v1 n0 * nth j v2 n0 =? n0 then Ok (mkB (put16 (b_mat b) lst y 0) (b_te b) (b_ps b) (b_pv b) (b_pi b))
    else Ok (mkB (put16 (b_mat b) lst y (length (b_te b))) (b_te b ++ [EConst (nth i v1 n0 * nth j v2 n0)]) (b_ps b) (b_pv b) (b_pi b)).

  (** 624-752 [synchronousComposition2PCTMCs].  [pstr] is
      list(set(m1.parameter_str+m2.parameter_str)).  parameter_values is the
      dictionary of m1 itself. *)
  Definition synchronousComposition2PCTMCs (m1 m2 : pctmc K) (sync1 sync2 : list sync) (pstr : list string) (name : string) : res (pctmc K * list sync) :=
    let ids1 := sids (pc_lab m1) (pc_lab m1) in
    let ids2 := sids (pc_lab m1) (pc_lab m2) in
    let nb := (length ids1 * length ids2)%nat in
    let labels := map (fun ab => (nth (fst ab) (pc_lab m1) EmptyString ++ "," ++ nth (snd ab) (pc_lab m2) EmptyString)%string) (pairs ids1 ids2) in
    let b0 := mkB (repeat (repeat O nb) nb) [EConst n0] pstr [] (map (fun _ => []) pstr) in
    do b <- mfold (add_transition ids1 ids2 m1 true) (pairs ids1 ids1) b0;
    do b <- mfold (add_transition ids1 ids2 m2 false) (pairs ids2 ids2) b;
    do b <- mfold (add_loop16 ids1 ids2 m1 m2) (pairs ids1 ids2) b;
    do st <- sync_trans ids1 ids2 sync1 sync2;
    let labels := labels ++ ["init"%string] in
    let b := mkB (map (fun r => r ++ [O]) (b_mat b ++ [repeat O nb])) (b_te b) (b_ps b) (b_pv b) (b_pi b) in
    do v1 <- init_trans16 m1 (init_ids (pc_lab m1)) ids1;
    do v2 <- init_trans16 m2 (init_ids (pc_lab m2)) ids2;
    do b <- mfold (add_init16 ids1 ids2 v1 v2) (pairs (seq 0 (length v1)) (seq 0 (length v2))) b;
    do m <- PCTMC_new (map (map Z.of_nat) (b_mat b)) labels (b_te b) (map (fun p => (fst p, Some (snd p))) (pc_val m1))
              (map (map (fun c => (Z.of_nat (fst c), Z.of_nat (snd c)))) (b_pi b)) (b_ps b) name;
    Ok (m, st).

  (** 610-619: the synchronous transitions are added.  Line 619 looks for a sympy
      symbol in the list of names, where it is not equal to any string: ValueError
      as soon as the new expression has a parameter. *)
  Definition add_sync16 (m : pctmc K) (t : sync) : res (pctmc K) :=
    let '(i, _, d, r) := t in
    let e := if (ref m i d =? 0)%nat then EConst r else EAdd (EConst r) (transitionExpression m i d) in
    let (te, k) := find_or_add (pc_expr m) e in
    match symbols e with
    | [] => Ok (mkPC (put16 (pc_mat m) i d k) (pc_lab m) te (pc_val m) (pc_ind m) (pc_par m) (pc_ini m) (pc_name m))
    | _ :: _ => Err ValueError
    end.

  (** 565-586 [removeUnreachableState] *)
  Fixpoint shift2 (i : nat) (l : list (nat * nat)) : list (nat * nat) :=
    match l with
    | [] => []
    | c :: r => if (Nat.eqb (fst c) i || Nat.eqb (snd c) i)%bool then shift2 i r else (dec i (fst c), dec i (snd c)) :: shift2 i r
    end.
  Fixpoint remove_unreachable16 (fuel : nat) (mat : list (list nat)) (lab : list string) (pi : list (list (nat * nat))) (ini : list K)
    : list (list nat) * list string * list (list (nat * nat)) * list K :=
    match fuel with
    | O => (mat, lab, pi, ini)
    | S f =>
      match find (unreached mat lab) (seq 0 (length mat)) with
      | None => (mat, lab, pi, ini)
      | Some i => remove_unreachable16 f (map (del i) (del i mat)) (del i lab) (map (shift2 i) pi) (del i ini)
      end
    end.
  (** 588-598 [removeUnusedTrans]; the set difference is listed in increasing
      order *)
  Definition unused (te : list (expr K)) (mat : list (list nat)) : list nat := filter (fun k => negb (memb Nat.eqb k (concat mat))) (seq 0 (length te)).
  Fixpoint remove_unused (fuel : nat) (l : list nat) (te : list (expr K)) (mat : list (list nat)) : list (expr K) * list (list nat) :=
    match fuel, l with
    | S f, i :: r => remove_unused f (map (dec i) r) (del i te) (map (map (dec i)) mat)
    | _, _ => (te, mat)
    end.
  Definition clean (m : pctmc K) : pctmc K :=
    let nats := map (map (fun c => (Z.to_nat (fst c), Z.to_nat (snd c)))) in
    let ints := map (map (fun c => (Z.of_nat (fst c), Z.of_nat (snd c)))) in
    let '(mat, lab, pi, ini) := remove_unreachable16 (pc_n m) (pc_mat m) (pc_lab m) (nats (pc_ind m)) (pc_ini m) in
    let l := unused (pc_expr m) mat in
    let (te, mat) := remove_unused (length l) l (pc_expr m) mat in
    mkPC mat lab te (pc_val m) (ints pi) (pc_par m) ini (pc_name m).

  (** 548-622 [synchronousCompositionPCTMCs].  A model has its own list of
      synchronous transitions, or ([None]) the list that is the default value of
      the constructor's argument, shared by all such models: [dflt] is its
      content, returned with the result.  The loop appends the synchronous
      transitions found so far to the list of the composition, which is that
      shared list.  [pstrs]: the orders of the sets of names. *)
  Fixpoint compose_loop (m1 : pctmc K) (own : option (list sync)) (found : list sync) (ms : list (pctmc K * option (list sync)))
      (dflt : list sync) (pstrs : list (list string)) (name : string) : res (pctmc K * list sync) * list sync :=
    match ms with
    | [] => (Ok (m1, found), dflt)
    | (m2, own2) :: ms' =>
      let own := match own with Some l => Some (l ++ found) | None => None end in
      let dflt := match own with Some _ => dflt | None => dflt ++ found end in
      let list_of o := match o with Some l => l | None => dflt end in
      match synchronousComposition2PCTMCs m1 m2 (list_of own) (list_of own2) (hd [] pstrs) name with
      | Ok (m, st) => compose_loop m None st ms' dflt (tl pstrs) name
      | Err e => (Err e, dflt)
      end
    end.
  Definition synchronousCompositionPCTMCs (ms : list (pctmc K * option (list sync))) (dflt : list sync) (pstrs : list (list string)) (name : string)
    : res (pctmc K) * list sync :=
    match ms with
    | [] => (Err ValueError, dflt)
    | [(m, _)] => (Ok m, dflt)
    | (m1, own) :: ms' =>
      let (r, dflt) := compose_loop m1 own [] ms' dflt pstrs name in
      (do ms <- r; let (m, st) := ms in do m <- mfold add_sync16 st m; Ok (clean m), dflt)
    end.
End PCompose.
