(** Synchronous composition of two CTMCs.  Structural model of
    jajapy/ctmc/CTMC.py:503-649 [synchronousCompositionCTMCs].  The synchronous
    transitions of a model, (source, action, destination, rate), are given
    separately.  Matrices are square and labellings have one entry per row (the
    constructors check the latter). *)
From Coq Require Import String ZArith Bool Arith DecimalString List.
From Verif Require Import Num Py MTools MSet MModels MCtor MPctmc.
Import ListNotations.
Local Open Scope num_scope.

(** [str(i)] *)
Definition str_nat (n : nat) : string := NilZero.string_of_uint (Nat.to_uint n).
(** "p_"+str(i)+'_'+str(j), "p"+str(i)+'_'+str(i), "initp_"+str(i) *)
Definition name2 (p : string) (i j : nat) : string := (p ++ str_nat i ++ "_" ++ str_nat j)%string.

Section Compose.
  Context {K : Type} `{Num K}.

  Definition is_init (l : string) : bool := String.eqb l "init".
  (** 521-522 *)
  Definition init_ids (lab : list string) : list nat := filter (fun i => is_init (nth i lab EmptyString)) (seq 0 (length lab)).
  (** 526-527: both use the labelling of the FIRST model. *)
  Definition sids (lab1 lab : list string) : list nat :=
    map (fun i => i - countb String.eqb "init"%string (firstn i lab1))%nat
        (filter (fun i => negb (is_init (nth i lab EmptyString))) (seq 0 (length lab))).

  (** The variables matrix, t_e, p_str, p_v and p_i. *)
  Record build := mkB { b_mat : list (list nat); b_te : list (expr K); b_ps : list string; b_pv : dict K; b_pi : list (list (nat * nat)) }.

  (** 536-539 [get_state_index] *)
  Definition state_index (ids1 ids2 : list nat) (s1 s2 : nat) : res nat :=
    do y <- index_err Nat.eqb s2 ids2;
    do x <- index_err Nat.eqb s1 ids1;
    Ok (x * length ids2 + y)%nat.
  (** matrix[x,y] = t: the entries are 8-bit *)
  Definition put (m : list (list nat)) (x y t : nat) : list (list nat) := mat_set m x y (t mod 256).
  (** 543-547, 549-553: one turn of the loops of [add_in_matrix] *)
  Definition put_cell (t ind : nat) (b : build) (x y : nat) : build :=
    mkB (put (b_mat b) x y t) (b_te b) (b_ps b) (b_pv b) (upd (b_pi b) ind (nth ind (b_pi b) [] ++ [(x, y)])).
  Definition add_in_matrix (ids1 ids2 : list nat) (t s1 s2 : nat) (first : bool) (ind : nat) (b : build) : res build :=
    if first then
      mfold (fun b i => do x <- state_index ids1 ids2 s1 i; do y <- state_index ids1 ids2 s2 i; Ok (put_cell t ind b x y)) ids2 b
    else
      mfold (fun b i => do x <- state_index ids1 ids2 i s1; do y <- state_index ids1 ids2 i s2; Ok (put_cell t ind b x y)) ids1 b.
  (** 559-574: the transitions of m1 (first = true, prefix "p_") or m2 ("q_") *)
  Definition add_trans (ids1 ids2 : list nat) (mat : list (list K)) (first : bool) (b : build) (ij : nat * nat) : res build :=
    let (i, j) := ij in
    let v := mget mat i j in
    if v =? n0 then Ok b
    else
      let nm := name2 (if first then "p_" else "q_") i j in
      add_in_matrix ids1 ids2 (length (b_te b)) i j first (length (b_pi b))
        (mkB (b_mat b) (b_te b ++ [EVar nm]) (b_ps b ++ [nm]) (dset (b_pv b) nm v) (b_pi b ++ [[]])).
  Definition pairs (l1 l2 : list nat) : list (nat * nat) := flat_map (fun i => map (fun j => (i, j)) l2) l1.

  (** 576-581: states where both models have a self loop.  The names lack the
      underscore. *)
  Definition add_loop (ids1 ids2 : list nat) (m1 m2 : list (list K)) (b : build) (ij : nat * nat) : res build :=
    let (i, j) := ij in
    if (mget m1 i i =? n0) || (mget m2 j j =? n0) then Ok b
    else
      do x <- state_index ids1 ids2 i j;
      Ok (mkB (put (b_mat b) x x (length (b_te b))) (b_te b ++ [EAdd (EVar (name2 "p" i i)) (EVar (name2 "q" j j))]) (b_ps b) (b_pv b) (b_pi b)).

  (** 583-587 *)
  Notation sync := (nat * string * nat * K)%type.
  Definition add_sync (ids1 ids2 : list nat) (b : build) (t : sync * sync) : res build :=
    let '(si, ai, di, pi, (sj, aj, dj, pj)) := t in
    if String.eqb ai aj then
      do x <- state_index ids1 ids2 si sj;
      do y <- state_index ids1 ids2 di dj;
      let te := b_te b ++ [EAdd (nth (nth y (nth x (b_mat b) []) O) (b_te b) (EConst n0)) (EConst (pi * pj))] in
      Ok (mkB (put (b_mat b) x y (length te - 1)) te (b_ps b) (b_pv b) (b_pi b))
    else Ok b.

  (** 592-599, 600-607 *)
  Definition init_trans (mat : list (list K)) (inits ids : list nat) : list K :=
    fold_left (fun v i => zipwith (fun a x => if n0 <? a * x then a * x else a + x) v (map (fun j => mget mat i j) ids))
              inits (vzeros (length ids)).
  (** 608-612, 613-617 *)
  Definition add_init_params (p : string) (b : build) (iv : nat * K) : build :=
    let (i, v) := iv in
    if n0 <? v then mkB (b_mat b) (b_te b) (b_ps b ++ [(p ++ str_nat i)%string]) (dset (b_pv b) (p ++ str_nat i)%string v) (b_pi b ++ [[]]) else b.
  (** p_i[p_str.index(p)].append(c) *)
  Definition add_index (b : build) (p : string) (c : nat * nat) : res build :=
    do k <- index_err String.eqb p (b_ps b);
    Ok (mkB (b_mat b) (b_te b) (b_ps b) (b_pv b) (upd (b_pi b) k (nth k (b_pi b) [] ++ [c]))).
  (** 618-626 *)
  Definition add_init (ids1 ids2 : list nat) (v1 v2 : list K) (b : build) (ij : nat * nat) : res build :=
    let (i, j) := ij in
    let lst := (length (b_mat b) - 1)%nat in
    do y <- state_index ids1 ids2 i j;
    if nth i v1 n0 * nth j v2 n0 <=? n0 then
      Ok (mkB (put (b_mat b) lst y 0) (b_te b) (b_ps b) (b_pv b) (b_pi b))
    else
      let b := mkB (put (b_mat b) lst y (length (b_te b))) (b_te b ++ [EMul (EVar ("initp_" ++ str_nat i)) (EVar ("initq_" ++ str_nat j))])
                   (b_ps b) (b_pv b) (b_pi b) in
      do b <- add_index b ("initp_" ++ str_nat i)%string (lst, y);
      add_index b ("initq_" ++ str_nat j)%string (lst, y).

  (** numpy's delete(matrix,i,0), delete(matrix,i,1), labelling[:i]+labelling[i+1:] *)
  Definition del {A} (i : nat) (l : list A) : list A := firstn i l ++ skipn (S i) l.
  (** 635-645: the positions before [todo] are done; [remove] takes out the first
      element equal to the given one. *)
  Definition cell_eqb (c d : nat * nat) : bool := (Nat.eqb (fst c) (fst d) && Nat.eqb (snd c) (snd d))%bool.
  Fixpoint remove1 (c : nat * nat) (l : list (nat * nat)) : list (nat * nat) :=
    match l with [] => [] | d :: r => if cell_eqb c d then r else d :: remove1 c r end.
  Definition dec (i x : nat) : nat := if (i <? x)%nat then (x - 1)%nat else x.
  Fixpoint shift (i : nat) (done todo : list (nat * nat)) : list (nat * nat) :=
    match todo with
    | [] => done
    | c :: r => if (Nat.eqb (fst c) i || Nat.eqb (snd c) i)%bool then shift i (remove1 c (done ++ [c])) r
                else shift i (done ++ [(dec i (fst c), dec i (snd c))]) r
    end.
  (** 628-647: the loop starts again at 0 after each removal. [fuel] is at least
      the number of states.  [sh i] is what the loop 635-645 makes of the cells of
      a parameter when state i is removed. *)
  Definition unreached (mat : list (list nat)) (lab : list string) (i : nat) : bool :=
    forallb (fun r => Nat.eqb (nth i r O) 0) mat && negb (is_init (nth i lab EmptyString)).
  Fixpoint remove_unreachable (sh : nat -> list (nat * nat) -> list (nat * nat)) (fuel : nat) (mat : list (list nat)) (lab : list string) (pi : list (list (nat * nat)))
    : list (list nat) * list string * list (list (nat * nat)) :=
    match fuel with
    | O => (mat, lab, pi)
    | S f =>
      match find (unreached mat lab) (seq 0 (length mat)) with
      | None => (mat, lab, pi)
      | Some i => remove_unreachable sh f (map (del i) (del i mat)) (del i lab) (map (sh i) pi)
      end
    end.

  Definition synchronousCompositionCTMCs (m1 m2 : ctmc K) (sync1 sync2 : list sync) (name : string) : res (pctmc K) :=
    let ids1 := sids (ct_lab m1) (ct_lab m1) in
    let ids2 := sids (ct_lab m1) (ct_lab m2) in
    let nb := (length ids1 * length ids2)%nat in
    let labels := map (fun ab => (nth (fst ab) (ct_lab m1) EmptyString ++ "," ++ nth (snd ab) (ct_lab m2) EmptyString)%string) (pairs ids1 ids2) in
    let b0 := mkB (repeat (repeat O nb) nb) [EConst n0] [] [] [] in
    do b <- mfold (add_trans ids1 ids2 (ct_mat m1) true) (pairs ids1 ids1) b0;
    do b <- mfold (add_trans ids1 ids2 (ct_mat m2) false) (pairs ids2 ids2) b;
    do b <- mfold (add_loop ids1 ids2 (ct_mat m1) (ct_mat m2)) (pairs ids1 ids2) b;
    do b <- mfold (add_sync ids1 ids2) (list_prod sync1 sync2) b;
    let labels := labels ++ ["init"%string] in
    let b := mkB (map (fun r => r ++ [O]) (b_mat b ++ [repeat O nb])) (b_te b) (b_ps b) (b_pv b) (b_pi b) in
    let v1 := init_trans (ct_mat m1) (init_ids (ct_lab m1)) ids1 in
    let v2 := init_trans (ct_mat m2) (init_ids (ct_lab m2)) ids2 in
    let b := fold_left (add_init_params "initp_") (combine (seq 0 (length v1)) v1) b in
    let b := fold_left (add_init_params "initq_") (combine (seq 0 (length v2)) v2) b in
    do b <- mfold (add_init ids1 ids2 v1 v2) (pairs (seq 0 (length v1)) (seq 0 (length v2))) b;
    let '(mat, labels, pi) := remove_unreachable (fun i => shift i []) (S nb) (b_mat b) labels (b_pi b) in
    PCTMC_new (map (map Z.of_nat) mat) labels (b_te b) (map (fun p => (fst p, Some (snd p))) (b_pv b))
              (map (map (fun c => (Z.of_nat (fst c), Z.of_nat (snd c)))) pi) (b_ps b) name.
End Compose.
Arguments build K : clear implicits.
