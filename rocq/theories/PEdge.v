(** C169: learning when the model explains no trace; C152: infinities do not
    cancel; C117: the exception of a GoHMM after an MDP. *)
From Coq Require Import String ZArith Bool Reals List Lia Lra.
From Verif Require Import Num Py SNum SPath LSum MSet SSet LSet MModels MLik MBW LFB LEM SBW LBW LBWSet LBWMC SLik LPath LLik LLik2 LBWLoop LBWPath SExp
  LEMGen PLik LFit LBWHMM LBWMDP LBWCT LBWGO PBWMC PBWHMM PBWMDP PBWCT PBWGO MExt MPctmc SPctmc LPctmc MPLearn MBWObj PBWObj.
Import ListNotations.
Local Open Scope R_scope.

Section Unused.
Context {S T : Type}.
Lemma nothing_used p (work : S -> Z -> option T) set : (forall x t, In (x, t) set -> work x t = None) ->
  (1 < p)%nat \/ set = [] -> unwrap (runProcesses p work set) = Ok [].
Proof.
  intros N H. unfold runProcesses. assert (F : filter (fun r => match r with Some _ => true | None => false end) (map (fun st => work (fst st) (snd st)) set) = []).
  { induction set as [|[x t] set IH]; [reflexivity|]. cbn [map filter fst snd]. rewrite (N x t (or_introl eq_refl)). apply IH; [intros; apply N; right; assumption|]. destruct H as [H|H]; [left; exact H|discriminate]. }
  destruct (Nat.ltb_spec 1 p); [rewrite F; reflexivity|]. destruct H as [H|H]; [lia|]. rewrite H. reflexivity.
Qed.
Lemma nothing_used_one p (work : S -> Z -> option T) set : (forall x t, In (x, t) set -> work x t = None) ->
  (p <= 1)%nat -> set <> [] -> unwrap (runProcesses p work set) = Err TypeError.
Proof.
  intros N H NE. apply unwrap_run_one_err; [exact H|]. destruct set as [|[x t] set]; [contradiction|]. exists (x, t). split; [left; reflexivity|]. apply N. left. reflexivity.
Qed.
Lemma used_cases p (set : list (S * Z)) : ((1 < p)%nat \/ set = []) \/ ((p <= 1)%nat /\ set <> []).
Proof. destruct (Nat.lt_ge_cases 1 p); [left; left; assumption|]. destruct set; [left; right; reflexivity|]. right. split; [lia|discriminate]. Qed.
End Unused.

Lemma loop_first {M} (round : M -> res (M * R)) eps n m e : round m = Err e -> bw_loop round eps (S n) None 0 m = Err e.
Proof. intros E. cbn [bw_loop]. rewrite E. reflexivity. Qed.

(** No training trace has a positive probability: no model is learned. *)
Theorem C169_mc_nothing_explained : forall (m : mc R) (p : nat) (set : list (list string * Z)) (eps : R) (max_it : nat),
  wf_mc m -> (forall tr t, In (tr, t) set -> mc_trace_prob_move m tr = 0) ->
  bw_loop (round_MC p set) eps (S max_it) None 0 m = Err TypeError.
Proof.
  intros m p set eps n W Z. apply loop_first. unfold round_MC, update_MC.
  assert (N : forall tr t, In (tr, t) set -> processWork_MC m tr t = None).
  { intros tr t I. rewrite (pw_mc m W), mcP_path. destruct (Req_EM_T _ 0) as [_|X]; [reflexivity|]. exfalso. apply X, (Z tr t I). }
  destruct (used_cases p set) as [H|[H NE]]; [rewrite (nothing_used p _ set N H)|rewrite (nothing_used_one p _ set N H NE)]; reflexivity.
Qed.
Print Assumptions C169_mc_nothing_explained.
Theorem C169_hmm_nothing_explained : forall (m : hmm R) (p : nat) (set : list (list string * Z)) (eps : R) (max_it : nat),
  wf_hmm m -> (forall tr t, In (tr, t) set -> hmm_trace_prob_move m tr = 0) ->
  bw_loop (round_HMM p set) eps (S max_it) None 0 m = Err TypeError.
Proof.
  intros m p set eps n W Z. apply loop_first. unfold round_HMM, update_HMM.
  assert (N : forall tr t, In (tr, t) set -> processWork_HMM m tr t = None).
  { intros tr t I. rewrite (pw_hmm m W), hP_path. destruct (Req_EM_T _ 0) as [_|X]; [reflexivity|]. exfalso. apply X, (Z tr t I). }
  destruct (used_cases p set) as [H|[H NE]]; [rewrite (nothing_used p _ set N H)|rewrite (nothing_used_one p _ set N H NE)]; reflexivity.
Qed.
Print Assumptions C169_hmm_nothing_explained.
Theorem C169_ctmc_timed_nothing_explained : forall (m : ctmc R) (fixed : list (list bool)) (p : nat) (set : list (timed * Z)) (eps : R) (max_it : nat),
  wf_ctmc m -> (forall tr t, In (tr, t) set -> length (fst tr) = S (length (snd tr)) /\ ct_density m tr = 0) ->
  bw_loop (round_CTMC_timed p fixed set) eps (S max_it) None 0 m = Err TypeError.
Proof.
  intros m fixed p set eps n W Z. apply loop_first. unfold round_CTMC_timed, update_CTMC.
  assert (N : forall tr t, In (tr, t) set -> processWork_CTMC_timed m fixed tr t = None).
  { intros tr t I. destruct (Z tr t I) as (L & D). rewrite (pw_timed m W fixed), (tP_path m tr L). destruct (Req_EM_T _ 0) as [_|X]; [reflexivity|contradiction]. }
  destruct (used_cases p set) as [H|[H NE]]; [rewrite (nothing_used p _ set N H)|rewrite (nothing_used_one p _ set N H NE)]; reflexivity.
Qed.
Print Assumptions C169_ctmc_timed_nothing_explained.
(** For an MDP the exception depends on the number of processes. *)
Theorem C169_mdp_nothing_explained : forall (m : mdp R) (p : nat) (set : list (list string * Z)) (eps : R) (max_it : nat),
  wf_mdp m -> (forall tr t, In (tr, t) set -> alternating tr /\ mdp_trace_prob m tr = 0) ->
  bw_loop (round_MDP p set) eps (S max_it) None 0 m = Err (if (1 <? p)%nat then ValueError else match set with [] => ValueError | _ => TypeError end).
Proof.
  intros m p set eps n W Z. apply loop_first. unfold round_MDP, update_MDP.
  assert (N : forall tr t, In (tr, t) set -> processWork_MDP m tr t = None).
  { intros tr t I. destruct (Z tr t I) as (A & D). rewrite (d_work m W [(tr, t)] tr t (or_introl eq_refl)), (dP_path m tr W A). destruct (Req_EM_T _ 0) as [_|X]; [reflexivity|contradiction]. }
  destruct (used_cases p set) as [H|[H NE]]; [rewrite (nothing_used p _ set N H)|rewrite (nothing_used_one p _ set N H NE)].
  - cbn [bind]. destruct (Nat.ltb_spec 1 p); [reflexivity|]. destruct H as [H| ->]; [lia|reflexivity].
  - cbn [bind]. destruct (Nat.ltb_spec 1 p); [lia|]. destruct set; [contradiction|reflexivity].
Qed.
Print Assumptions C169_mdp_nothing_explained.

(** The empty training set, in any arithmetic. *)
Theorem C169_empty_set : forall K (NK : Num K) (TK : Trans K) (p d n : nat) (eps : K) fixed (m : mc K) (h : hmm K) (g : gohmm K) (c : ctmc K) (x : mdp K),
  bw_loop (round_MC p []) eps (S n) None 0 m = Err TypeError /\ bw_loop (round_HMM p []) eps (S n) None 0 h = Err TypeError /\
  bw_loop (round_GoHMM p d []) eps (S n) None 0 g = Err TypeError /\ bw_loop (round_CTMC_timed p fixed []) eps (S n) None 0 c = Err TypeError /\
  bw_loop (round_CTMC_untimed p fixed []) eps (S n) None 0 c = Err TypeError /\ bw_loop (round_MDP p []) eps (S n) None 0 x = Err ValueError.
Proof.
  intros. repeat split; cbn [bw_loop]; unfold round_MC, round_HMM, round_GoHMM, round_CTMC_timed, round_CTMC_untimed, round_MDP, runProcesses; cbn [map filter]; destruct (1 <? p)%nat; reflexivity.
Qed.
Print Assumptions C169_empty_set.

Example C169_instance : forall p eps max_it, wf_mc ex_mc /\ bw_loop (round_MC p [(["a"; "b"]%string, 4%Z)]) eps (S max_it) None 0 ex_mc = Err TypeError.
Proof.
  intros p eps n. split; [apply ex_mc_wf|]. apply C169_mc_nothing_explained; [apply ex_mc_wf|]. intros tr t [[= <- <-]|[]]. unfold mc_trace_prob_move, trace_prob, is_label, sumL. cbn. lra.
Qed.

(** C152: a sum with an infinity or a nan is not a number: infinities do not
    cancel, whatever the order of the terms. *)
Theorem C152_infinities_do_not_cancel : forall (l : list xr) z, @nsum xr XNum l = XF z -> forall x, In x l -> exists y, x = XF y.
Proof.
  assert (A : forall a b z, xadd a b = XF z -> (exists x, a = XF x) /\ (exists y, b = XF y)) by (intros [x| | |] [y| | |] z; cbn; intros E; try discriminate; eauto).
  induction l as [|a l IH]; intros z E x I; [destruct I|]. change (xadd a (@nsum xr XNum l) = XF z) in E. destruct (A _ _ _ E) as (P1 & (y & P2)).
  destruct I as [<-|I]; [exact P1|apply (IH y P2 x I)].
Qed.
Print Assumptions C152_infinities_do_not_cancel.
Example C152_cancel_instance : @nsum xr XNum [XF 1; XF 2] = XF (1 + (2 + 0)) /\ forall z, @nsum xr XNum [XP; XF 1; XM] <> XF z.
Proof. split; [reflexivity|]. intros z E. destruct (C152_infinities_do_not_cancel _ _ E XP (or_introl eq_refl)) as (y & Y). discriminate. Qed.

(** C117: right after an MDP (and calls that are not for parametric CTMCs) the
    exception depends on what is learned and on the first trace. *)
Theorem C117_after_mdp : forall history processes (eps : R) max_it, existsb parametric history = false ->
  (forall x set m, fst (fit_on (after (history ++ [CallMDP])) processes eps (S max_it) (JobMC (x :: set) m)) = Err TypeError) /\
  (forall x set m, fst (fit_on (after (history ++ [CallMDP])) processes eps (S max_it) (JobHMM (x :: set) m)) = Err TypeError) /\
  (forall d tr t set m, fst (fit_on (after (history ++ [CallMDP])) processes eps (S max_it) (JobGoHMM d ((tr, t) :: set) m)) = Err (if (length tr <=? 1)%nat then AttributeError else TypeError)) /\
  (forall fixed tr t set m, fst (fit_on (after (history ++ [CallMDP])) processes eps (S max_it) (JobUntimed fixed ((tr, t) :: set) m)) = Err (if (length tr <=? 1)%nat then IndexError else TypeError)).
Proof.
  intros h p eps n P. rewrite after_snoc. cbn [bind_methods]. assert (Q : me_pctmc (after h) = false) by (rewrite after_pctmc; exact P). rewrite Q.
  split; [intros; reflexivity|]. split; [intros; reflexivity|]. split; intros; cbn [fit_on fst call_of bind_methods bw_loop].
  - unfold round_GoHMM_on, computeTaus, run_all. cbn [me_pctmc andb bind me_alphas me_tau mmap fst snd]. destruct (Nat.ltb_spec 1 (length tr)), (Nat.leb_spec (length tr) 1); try lia; reflexivity.
  - unfold round_CTMC_untimed_on, computeTaus, run_all. cbn [me_pctmc andb bind mmap fst snd]. destruct (Nat.ltb_spec (length tr) 2), (Nat.leb_spec (length tr) 1); try lia; reflexivity.
Qed.
Print Assumptions C117_after_mdp.
Example C117_after_mdp_instance : forall m, fst (fit_on (after [CallMC; CallMDP]) 3 (1/100) 5 (JobGoHMM 1 [([[1]], 2%Z); ([[1]; [2]], 1%Z)] m)) = Err AttributeError.
Proof. intros m. apply (C117_after_mdp [CallMC] 3 (1/100) 4 eq_refl). Qed.

(** C87: evaluateTransition with its own values uses these and nothing else: the
    number is the rate for these values, and there is no number when one of the
    parameters of the transition is not among them. *)
Theorem C87_evaluate_given_values : forall (m : pctmc R) (i j : nat) (d : dict R),
  (forall v, evaluateTransition m i j (Some d) = Some v <-> has_rate m (dget d) i j v) /\
  (evaluateTransition m i j (Some d) = None <-> exists x, occurs x (transition m i j) /\ dget d x = None) /\
  evaluateTransition m i j None = evaluateTransition m i j (Some (pc_val m)).
Proof.
  intros m i j d. split; [|split; [|reflexivity]].
  - intros v. unfold evaluateTransition, has_rate. rewrite transition_eq. apply eval_has_value.
  - unfold evaluateTransition. rewrite transition_eq. generalize (transition m i j). intros e. split.
    + induction e as [c|x|a IHa b IHb|a IHa b IHb|a IHa b IHb|a IHa n]; cbn; intros E; try discriminate.
      * exists x. split; [reflexivity|exact E].
      * destruct (eval d a); [destruct (eval d b); [discriminate|]; destruct (IHb eq_refl) as (x & O & N)|destruct (IHa eq_refl) as (x & O & N)]; exists x; auto.
      * destruct (eval d a); [destruct (eval d b); [discriminate|]; destruct (IHb eq_refl) as (x & O & N)|destruct (IHa eq_refl) as (x & O & N)]; exists x; auto.
      * destruct (eval d a); [destruct (eval d b); [discriminate|]; destruct (IHb eq_refl) as (x & O & N)|destruct (IHa eq_refl) as (x & O & N)]; exists x; auto.
      * destruct (eval d a); [discriminate|]. destruct (IHa eq_refl) as (x & O & N). exists x; auto.
    + intros (x & O & N). destruct (eval d e) as [v|] eqn:E; [|reflexivity]. apply eval_has_value in E as (rho & R & _). rewrite (R x O) in N. discriminate.
Qed.
Print Assumptions C87_evaluate_given_values.
Example C87_evaluate_instance : evaluateTransition (mkPC [[1]]%nat ["init"]%string [EConst 0; EMul (EVar "x") (EConst 2)] [("x"%string, 1)] [[(0, 0)]]%Z ["x"]%string [1] "m") 0 0 (Some [("x"%string, 5)]) = Some (5 * 2).
Proof. reflexivity. Qed.
