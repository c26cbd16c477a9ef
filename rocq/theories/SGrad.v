(** Specification for C146: moving a model in a straight line towards other
    parameters. *)
From Coq Require Import String ZArith Bool Reals List.
From Verif Require Import Num Py SNum SPath MSet MModels MLik SBW SLik.
Import ListNotations.
Local Open Scope R_scope.

(** The point reached at time t on the line from p (t = 0) to q (t = 1). *)
Definition mix (t x y : R) : R := (1 - t) * x + t * y.
Definition mixv (t : R) (p q : list R) : list R := map (fun xy => mix t (fst xy) (snd xy)) (combine p q).
Definition mixm (t : R) (p q : list (list R)) : list (list R) := map (fun rr => mixv t (fst rr) (snd rr)) (combine p q).

(** q uses no entry that p does not use, and has the same total. *)
Definition keeps (p q : list R) : Prop :=
  length q = length p /\ nonneg q /\ forall j, vecR p j = 0 -> vecR q j = 0.
Definition row_within (p q : list R) : Prop := keeps p q /\ rsum q = rsum p.

(** Log-likelihood, starting from m, has slope g when the parameters move
    towards the given ones. *)
Definition mc_towards (m : mc R) (A : list (list R)) (t : R) : mc R :=
  mkMC (mixm t (mc_mat m) A) (mc_lab m) (mc_ini m) (mc_name m).
Definition mc_slope (set : list (list string * Z)) (m : mc R) (A : list (list R)) (g : R) : Prop :=
  derivable_pt_lim (fun t => set_ll (mc_trace_prob_move (mc_towards m A t)) set) 0 g.

Definition hmm_towards (m : hmm R) (A B : list (list R)) (i : list R) (t : R) : hmm R :=
  mkHMM (mixm t (hmm_mat m) A) (mixm t (hmm_out m) B) (hmm_alph m) (mixv t (hmm_ini m) i) (hmm_name m).
Definition hmm_slope (set : list (list string * Z)) (m : hmm R) (A B : list (list R)) (i : list R) (g : R) : Prop :=
  derivable_pt_lim (fun t => set_ll (hmm_trace_prob_move (hmm_towards m A B i t)) set) 0 g.

Definition mdp_towards (m : mdp R) (A : list (list (list R))) (t : R) : mdp R :=
  mkMDP (map (fun rr => mixm t (fst rr) (snd rr)) (combine (mdp_mat m) A)) (mdp_lab m) (mdp_act m) (mdp_ini m) (mdp_name m).
Definition mdp_slope (set : list (list string * Z)) (m : mdp R) (A : list (list (list R))) (g : R) : Prop :=
  derivable_pt_lim (fun t => set_ll (mdp_trace_prob (mdp_towards m A t)) set) 0 g.

Definition ct_towards (m : ctmc R) (A : list (list R)) (t : R) : ctmc R :=
  mkCTMC (mixm t (ct_mat m) A) (ct_lab m) (ct_ini m) (ct_name m).
Definition ct_slope (set : list ((list string * list R) * Z)) (m : ctmc R) (A : list (list R)) (g : R) : Prop :=
  derivable_pt_lim (fun t => set_ll (ct_density (ct_towards m A t)) set) 0 g.

Definition mix_out (t : R) (p q : list (list (R * R))) : list (list (R * R)) :=
  map (fun rr => map (fun xy => (mix t (fst (fst xy)) (fst (snd xy)), mix t (snd (fst xy)) (snd (snd xy)))) (combine (fst rr) (snd rr))) (combine p q).
Definition go_towards (m : gohmm R) (A : list (list R)) (B : list (list (R * R))) (i : list R) (t : R) : gohmm R :=
  mkGO (mixm t (go_mat m) A) (mix_out t (go_out m) B) (mixv t (go_ini m) i) (go_name m).
Definition go_slope (set : list (list (list R) * Z)) (m : gohmm R) (A : list (list R)) (B : list (list (R * R))) (i : list R) (g : R) : Prop :=
  derivable_pt_lim (fun t => set_ll (go_trace_density_move (go_towards m A B i t)) set) 0 g.
