(** The order in which Python lists a set, in the synchronous composition of
    PCTMCs.  Structural model of jajapy/pctmc/PCTMC.py:588-598 and 600-622 with
    that order as an argument. *)
From Coq Require Import String ZArith Bool Arith List.
From Verif Require Import Num Py MPctmc MCompose MPCompose.
Import ListNotations.

Section Order.
  Context {K : Type} `{Num K}.
  Notation sync := (nat * string * nat * K)%type.

  (** 590-598, the loop of [removeUnusedTrans] from position [pos]: the whole list
      is decremented at each turn, the positions already visited too. *)
  Fixpoint unused_loop (turns pos : nat) (l : list nat) (te : list (expr K)) (mat : list (list nat)) : list (expr K) * list (list nat) :=
    match turns with
    | O => (te, mat)
    | S t => let i := nth pos l O in unused_loop t (S pos) (map (dec i) l) (del i te) (map (map (dec i)) mat)
    end.

  (** 565-598; [order] lists the set of line 589. *)
  Definition clean_in (order : list nat -> list nat) (m : pctmc K) : pctmc K :=
    let nats := map (map (fun c => (Z.to_nat (fst c), Z.to_nat (snd c)))) in
    let ints := map (map (fun c => (Z.of_nat (fst c), Z.of_nat (snd c)))) in
    let '(mat, lab, pi, ini) := remove_unreachable16 (pc_n m) (pc_mat m) (pc_lab m) (nats (pc_ind m)) (pc_ini m) in
    let l := order (unused (pc_expr m) mat) in
    let (te, mat) := unused_loop (length l) 0 l (pc_expr m) mat in
    mkPC mat lab te (pc_val m) (ints pi) (pc_par m) ini (pc_name m).

  (** 600-622 [synchronousCompositionPCTMCs] *)
  Definition compositionPCTMCs_in (order : list nat -> list nat) (ms : list (pctmc K * option (list sync))) (dflt : list sync)
      (pstrs : list (list string)) (name : string) : res (pctmc K) * list sync :=
    match ms with
    | [] => (Err ValueError, dflt)
    | [(m, _)] => (Ok m, dflt)
    | (m1, own) :: ms' =>
      let (r, dflt) := compose_loop m1 own [] ms' dflt pstrs name in
      (do ms <- r; let (m, st) := ms in do m <- mfold add_sync16 st m; Ok (clean_in order m), dflt)
    end.
End Order.
