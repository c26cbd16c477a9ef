(** str(model): what print shows. *)
From Coq Require Import String Ascii ZArith Bool List.
From Verif Require Import Num Py MTools MSet MModels MCtor MText MPrism.
Import ListNotations.
Local Open Scope char_scope.

(** round(x, digits) *)
Class Round (K : Type) := { nround : nat -> K -> K }.

Section Print.
  Context {K : Type} `{TK : Text K} `{NK : Num K} `{RK : Round K}.

  Definition visible (x : K) : bool := nltb (ndiv (nofZ 1) (nofZ 10000)) x.
  Definition indexed {A} (l : list A) : list (nat * A) := combine (seq 0 (length l)) l.

  (** jajapy/base/Model.py:201-214 [__str__]; [first_one] is
      [where(self.initial_state==1.0)[0][0]], which exists when
      [1.0 in self.initial_state].  [res[:-2]] removes the last two characters of
      the whole text. *)
  Definition model_str (name : string) (ini : list K) (states : nat) (state_str : nat -> text) : text :=
    let res := s2t "Name: " ++ s2t name ++ [NL] in
    let res :=
      match first_one 0 ini with
      | Ok i => res ++ s2t "Initial state: s" ++ show_nat i ++ [NL]
      | Err _ =>
        let res := res ++ s2t "Initial state: " in
        let res := res ++ flat_map (fun ix => if nleb (ndiv (nofZ 1) (nofZ 1000)) (snd ix)
                                              then s2t "s" ++ show_nat (fst ix) ++ s2t ": " ++ s2t (show (nround 3 (snd ix))) ++ s2t ", " else []) (indexed ini) in
        firstn (length res - 2) res ++ [NL]
      end in
    res ++ flat_map (fun s => state_str s ++ [NL]) (seq 0 states) ++ [NL].

  (** ["----STATE "+str(state)+"--"+self.labelling[state]+"----\n"] *)
  Definition state_title (labels : list string) (s : nat) : text :=
    s2t "----STATE " ++ show_nat s ++ s2t "--" ++ s2t (lab labels s) ++ s2t "----" ++ [NL].

  (** jajapy/mc/MC.py:168-173 *)
  Definition mc_state_str (m : mc K) (s : nat) : text :=
    state_title (mc_lab m) s ++
    flat_map (fun jx => if visible (snd jx) then s2t "s" ++ show_nat s ++ s2t " -> s" ++ show_nat (fst jx) ++ s2t " : " ++ s2t (show (nround 5 (snd jx))) ++ [NL] else [])
      (indexed (nth s (mc_mat m) [])).
  Definition mc_str (m : mc K) : text := model_str (mc_name m) (mc_ini m) (mc_n m) (mc_state_str m).

  (** jajapy/ctmc/CTMC.py:153-161; with exit rate 0, [1/0.0] is [inf] and
      [0.0/0.0 > 0.0001] is false (numpy floats). *)
  Definition ctmc_state_str (m : ctmc K) (s : nat) : text :=
    let den := ct_e m s in
    state_title (ct_lab m) s ++
    s2t "Exepected waiting time: " ++ (if neqb den n0 then s2t "inf" else s2t (show (ct_expected_time m s))) ++ [NL] ++
    (if neqb den n0 then [] else
     flat_map (fun jx => if visible (ndiv (snd jx) den) then s2t "s" ++ show_nat s ++ s2t " -> s" ++ show_nat (fst jx) ++ s2t " : lambda = " ++ s2t (show (snd jx)) ++ [NL] else [])
      (indexed (nth s (ct_mat m) []))).
  Definition ctmc_str (m : ctmc K) : text := model_str (ct_name m) (ct_ini m) (ct_n m) (ctmc_state_str m).

  (** jajapy/mdp/MDP.py:290-296 *)
  Definition mdp_state_str (m : mdp K) (s : nat) : text :=
    state_title (mdp_lab m) s ++
    flat_map (fun ia =>
      flat_map (fun s' => let x := mdp_get (mdp_mat m) s (fst ia) s' in
        if visible x then s2t "s" ++ show_nat s ++ s2t " - (" ++ s2t (snd ia) ++ s2t ") -> s" ++ show_nat s' ++ s2t " : " ++ s2t (show x) ++ [NL] else [])
      (seq 0 (mdp_n m))) (indexed (mdp_act m)).
  Definition mdp_str (m : mdp K) : text := model_str (mdp_name m) (mdp_ini m) (mdp_n m) (mdp_state_str m).

  (** jajapy/base/Base_HMM.py:82-88 *)
  Definition base_hmm_state_str (matrix : list (list K)) (s : nat) : text :=
    s2t "----STATE s" ++ show_nat s ++ s2t "----" ++ [NL] ++
    flat_map (fun jx => if visible (snd jx) then s2t "s" ++ show_nat s ++ s2t " -> s" ++ show_nat (fst jx) ++ s2t " : " ++ s2t (show (snd jx)) ++ [NL] else [])
      (indexed (nth s matrix [])) ++
    s2t "************" ++ [NL].
  (** jajapy/hmm/HMM.py:116-121 *)
  Definition hmm_state_str (m : hmm K) (s : nat) : text :=
    base_hmm_state_str (hmm_mat m) s ++
    flat_map (fun jx => if visible (snd jx) then s2t "s" ++ show_nat s ++ s2t " => " ++ s2t (lab (hmm_alph m) (fst jx)) ++ s2t " : " ++ s2t (show (snd jx)) ++ [NL] else [])
      (indexed (nth s (hmm_out m) [])).
  Definition hmm_str (m : hmm K) : text := model_str (hmm_name m) (hmm_ini m) (hmm_n m) (hmm_state_str m).

  (** jajapy/gohmm/GoHMM.py:186-191 *)
  Definition go_state_str (m : gohmm K) (s : nat) : text :=
    base_hmm_state_str (go_mat m) s ++
    flat_map (fun np => s2t "mean " ++ show_nat (S (fst np)) ++ s2t ": " ++ s2t (show (nround 4 (fst (snd np)))) ++ [NL] ++
                        s2t "std " ++ show_nat (S (fst np)) ++ s2t ": " ++ s2t (show (nround 4 (snd (snd np)))) ++ [NL])
      (indexed (nth s (go_out m) [])).
  Definition go_str (m : gohmm K) : text := model_str (go_name m) (go_ini m) (go_n m) (go_state_str m).
End Print.
