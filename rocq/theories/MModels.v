(** The model classes and their probability functions.

    State ids are natural numbers here; the checks on the dynamic type and
    range of ids (Model._checkStateIndex) are modelled in MCtor.v, and all loops
    of the library only use ids in range.  A model's number of states is the
    length of its transition matrix (base/Model.py:40). *)
From Coq Require Import String ZArith Bool List.
From Verif Require Import Num Py.
Import ListNotations.
Local Open Scope num_scope.

Section Models.
  Context {K : Type} `{Num K}.

  (** jajapy/mc/MC.py:7-32, base/Base_MC.py:11-38, base/Model.py:23-52: the
      attributes [matrix], [labelling], [initial_state], [name] of an MC. *)
  Record mc := mkMC { mc_mat : list (list K); mc_lab : list string; mc_ini : list K; mc_name : string }.
  Definition mc_n (m : mc) : nat := length (mc_mat m).

  (** jajapy/base/Base_MC.py:59-79 (getLabel) for ids in range. *)
  Definition lab (l : list string) (s : nat) : string := nth s l EmptyString.

  (** jajapy/mc/MC.py:70-93 [a] *)
  Definition mc_a (m : mc) (s1 s2 : nat) : K := mget (mc_mat m) s1 s2.

  (** jajapy/base/Base_MC.py:81-84 [b] *)
  Definition lab_b (l : list string) (s : nat) (o : string) : K :=
    if String.eqb (lab l s) o then n1 else n0.

  (** jajapy/mc/MC.py:34-68 [tau] *)
  Definition mc_tau (m : mc) (s1 s2 : nat) (o : string) : K :=
    if negb (String.eqb o (lab (mc_lab m) s1)) then n0 else mget (mc_mat m) s1 s2.

  (** jajapy/hmm/HMM.py:9-39: attributes of an HMM. *)
  Record hmm := mkHMM { hmm_mat : list (list K); hmm_out : list (list K);
                        hmm_alph : list string; hmm_ini : list K; hmm_name : string }.
  Definition hmm_n (m : hmm) : nat := length (hmm_mat m).

  (** jajapy/hmm/HMM.py:41-67 [b]: 0 for an invalid id or an unknown symbol,
      else the entry at the first index of the symbol. *)
  Definition hmm_b (m : hmm) (s : nat) (o : string) : K :=
    if (hmm_n m <=? s)%nat then n0
    else match index_of String.eqb o (hmm_alph m) with
         | None => n0
         | Some i => mget (hmm_out m) s i
         end.

  (** jajapy/base/Base_HMM.py:33-59 [a], 61-80 [tau], hmm/HMM.py:69-93 *)
  Definition hmm_a (m : hmm) (s1 s2 : nat) : K := mget (hmm_mat m) s1 s2.
  Definition hmm_tau (m : hmm) (s1 s2 : nat) (o : string) : K := hmm_a m s1 s2 * hmm_b m s1 o.

  (** jajapy/mdp/MDP.py:15-45: attributes of an MDP, [matrix[s][action][s']]. *)
  Record mdp := mkMDP { mdp_mat : list (list (list K)); mdp_lab : list string;
                        mdp_act : list string; mdp_ini : list K; mdp_name : string }.
  Definition mdp_n (m : mdp) : nat := length (mdp_mat m).
  Definition mdp_get (mat : list (list (list K))) (s a s' : nat) : K := mget (nth s mat []) a s'.

  (** jajapy/mdp/MDP.py:76-116 [tau] *)
  Definition mdp_tau (m : mdp) (s1 : nat) (act : string) (s2 : nat) (o : string) : K :=
    if negb (String.eqb o (lab (mdp_lab m) s1)) then n0
    else match index_of String.eqb act (mdp_act m) with
         | None => n0
         | Some i => mdp_get (mdp_mat m) s1 i s2
         end.

  (** jajapy/ctmc/CTMC.py:19-52: attributes of a CTMC (the synchronous
      transitions are modelled separately in MCompose.v). *)
  Record ctmc := mkCTMC { ct_mat : list (list K); ct_lab : list string; ct_ini : list K; ct_name : string }.
  Definition ct_n (m : ctmc) : nat := length (ct_mat m).

  (** jajapy/ctmc/CTMC.py:54-67 [e]: sum of the rates of the row. *)
  Definition ct_e (m : ctmc) (s : nat) : K := nsum (nth s (ct_mat m) []).

  (** jajapy/ctmc/CTMC.py:70-93 [l] *)
  Definition ct_l (m : ctmc) (s1 s2 : nat) (o : string) : K :=
    if negb (String.eqb (lab (ct_lab m) s1) o) then n0 else mget (ct_mat m) s1 s2.

  (** jajapy/ctmc/CTMC.py:115-134 [tau], 136-151 [expected_time] *)
  Definition ct_tau (m : ctmc) (s1 s2 : nat) (o : string) : K := ct_l m s1 s2 o / ct_e m s1.
  Definition ct_expected_time (m : ctmc) (s : nat) : K := n1 / ct_e m s.

  (** jajapy/ctmc/CTMC.py:95-113 [lkl] *)
  Definition ct_lkl `{Trans K} (m : ctmc) (s : nat) (t : K) : K :=
    if t <? n0 then n0 else ct_e m s * nexp (n0 - ct_e m s * t).

  (** jajapy/gohmm/GoHMM.py:32-48: attributes of a GoHMM; [output[s][n]] is the
      pair (mu, sigma) of the n-th distribution of state s. *)
  Record gohmm := mkGO { go_mat : list (list K); go_out : list (list (K * K));
                         go_ini : list K; go_name : string }.
  Definition go_n (m : gohmm) : nat := length (go_mat m).
  Definition go_param (m : gohmm) (s k : nat) : K * K := nth k (nth s (go_out m) []) (n0, n0).
  (** jajapy/gohmm/GoHMM.py:67-83 [mu_n] *)
  Definition go_mu (m : gohmm) (s k : nat) : K := fst (go_param m s k).

  (** jajapy/gohmm/GoHMM.py:106-129 [b_n] *)
  Definition go_b_n `{Trans K} (m : gohmm) (s k : nat) (l : K) : K :=
    let (mu, sigma) := go_param m s k in
    if sigma <=? n0 then (if l =? mu then n1 else n0)
    else let z := (mu - l) / sigma in
         nexp (n0 - (n1 / nofZ 2) * (z * z)) / (sigma * nsqrt (nofZ 2 * npi)).

  (** jajapy/gohmm/GoHMM.py:85-104 [b]: product over the components of the
      observation. *)
  Definition go_b `{Trans K} (m : gohmm) (s : nat) (l : list K) : K :=
    fold_left nmul (zipwith (fun k x => go_b_n m s k x) (seq 0 (length l)) l) n1.

  (** jajapy/gohmm/GoHMM.py:147-167 and base/Base_HMM.py:58-80 [tau] *)
  Definition go_tau `{Trans K} (m : gohmm) (s1 s2 : nat) (o : list K) : K :=
    mget (go_mat m) s1 s2 * go_b m s1 o.
End Models.

Arguments mc K : clear implicits.
Arguments hmm K : clear implicits.
Arguments mdp K : clear implicits.
Arguments ctmc K : clear implicits.
Arguments gohmm K : clear implicits.
