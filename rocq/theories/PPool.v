(** Theorems about worker pools, numbers of processes and what fit reports: C43, C44, C74, C76, C77. *)
From Coq Require Import String ZArith Bool Reals List Lia Lra.
From Verif Require Import Num Py SNum SPath LSum MSet SSet LSet MModels MLik MBW LFB LEM SBW LBW LBWSet LBWMC SLik LPath LLik LLik2 LBWLoop LBWPath SExp
  LEMGen PLik LFit LBWHMM LBWMDP LBWCT LBWGO PBWMC PBWHMM PBWMDP PBWCT PBWGO MPool LPool.
Import ListNotations.
Local Open Scope R_scope.

(** ** C43 *)
(** Whatever the order in which tasks are taken and completed, and whatever the
    main process sees first, the collected list (or exception) is the one of the
    sequential loop. *)
Theorem C43_pool_any_schedule : forall (X A : Type) (work : X -> res A) (procs : nat) (tasks : list X) k st r,
  psteps work procs tasks k (pool_init tasks) st -> outcome tasks st = Some r -> r = mmap work tasks.
Proof. intros. eapply outcome_value; eauto. Qed.
Print Assumptions C43_pool_any_schedule.
(** No schedule is longer than 4 steps per task plus one, and with at least one
    worker it can only stop when the main process is done. *)
Theorem C43_pool_terminates : forall (X A : Type) (work : X -> res A) (procs : nat) (tasks : list X) k st,
  (0 < procs)%nat -> psteps work procs tasks k (pool_init tasks) st ->
  (k <= 4 * length tasks + 1)%nat /\ ((forall st', ~ pstep work procs tasks st st') -> outcome tasks st <> None).
Proof.
  intros X A work procs tasks k st Hp H. split.
  - pose proof (steps_bound work procs tasks k st H). lia.
  - intros NS O. destruct (progress work procs tasks k st Hp H O) as [st' H']. exact (NS st' H').
Qed.
Print Assumptions C43_pool_terminates.

Lemma pool_round_eq {K S T M} (work : M -> S -> Z -> option T) (update : M -> list (option T) -> res (M * K)) procs set m r :
  (1 < procs)%nat -> (pool_round work update procs set m r <-> r = update m (runProcesses procs (work m) set)).
Proof.
  intros Hp. unfold runProcesses. replace (1 <? procs)%nat with true by (symmetry; apply Nat.ltb_lt; exact Hp).
  split.
  - intros (k & st & l & Hs & O & ->). apply (outcome_value _ _ _ _ _ _ Hs) in O. rewrite mmap_Ok in O. inversion O; subst. reflexivity.
  - intros ->. destruct (outcome_exists (fun x : S * Z => Ok (work m (fst x) (snd x))) procs set ltac:(lia)) as (k & st & r & Hs & O).
    pose proof (outcome_value _ _ _ _ _ _ Hs O) as V. rewrite mmap_Ok in V. subst r. exists k, st. eexists. split; [exact Hs|]. split; [exact O|]. reflexivity.
Qed.
(** A whole run in which every round is computed by a pool under any schedule
    gives the result of the deterministic loop. *)
Theorem C43_learning_any_schedule : forall (S T M : Type) (work : M -> S -> Z -> option T) (update : M -> list (option T) -> res (M * R))
    (procs : nat) (set : list (S * Z)) (eps : R) (max_it : nat) prev c m r, (1 < procs)%nat ->
  (pool_run work update procs set eps max_it prev c m r <->
   r = bw_loop (fun x => update x (runProcesses procs (work x) set)) eps max_it prev c m).
Proof.
  intros S T M work update procs set eps mx prev c m r Hp. split.
  - intros H. induction H; cbn [bw_loop]; try reflexivity;
      match goal with H : pool_round _ _ _ _ _ _ |- _ => apply pool_round_eq in H; [rewrite <- H|exact Hp] end; cbn [bind].
    + reflexivity.
    + rewrite H0. reflexivity.
    + destruct prev as [p|]; [rewrite H0|]; exact IHpool_run.
  - intros ->. revert prev c m. induction mx as [|mx IH]; intros prev c m; cbn [bw_loop]; [constructor|].
    pose proof (proj2 (pool_round_eq work update procs set m _ Hp) eq_refl) as P.
    destruct (update m (runProcesses procs (work m) set)) as [[m' ll]|e]; cbn [bind]; [|apply pr_err; exact P].
    destruct prev as [p|].
    + destruct (_ <? _)%num eqn:B; [apply pr_stop; assumption|]. eapply pr_more; [exact P|exact B|apply IH].
    + eapply pr_more; [exact P|exact I|apply IH].
Qed.
Print Assumptions C43_learning_any_schedule.
(** The rounds of the learning algorithm are of this form, for instance for MCs. *)
Example C43_instance : forall (p : nat) (set : list (list string * Z)) (m : mc R),
  round_MC p set m = (fun x => update_MC x (runProcesses p (processWork_MC x) set)) m.
Proof. reflexivity. Qed.

(** ** C44 *)
Lemma loops_agree {M} (r1 r2 : M -> res (M * R)) (I : M -> Prop) eps :
  (forall m, I m -> r1 m = r2 m) -> (forall m m' l, I m -> r1 m = Ok (m', l) -> I m') ->
  forall fuel prev c m, I m -> bw_loop r1 eps fuel prev c m = bw_loop r2 eps fuel prev c m.
Proof.
  intros H1 H2. induction fuel as [|fuel IH]; intros prev c m Hm; cbn [bw_loop]; [reflexivity|].
  rewrite <- (H1 m Hm). destruct (r1 m) as [[m' l]|] eqn:E; cbn [bind]; [|reflexivity].
  destruct (match prev with None => false | Some p => _ end); [reflexivity|]. apply IH. eapply H2; eauto.
Qed.
Lemma unwrap_any {S T} p (work : S -> Z -> option T) set :
  (forall x t, In (x, t) set -> work x t <> None) -> unwrap (runProcesses p work set) = Ok (goods work set).
Proof.
  intros H. destruct (Nat.lt_ge_cases 1 p) as [L|L]; [apply unwrap_run_many; exact L|]. apply unwrap_run_one; [exact L|].
  intros [x t] I. apply H. exact I.
Qed.

(** [processes] has no influence when every training trace is possible. *)
Definition same_runs {M} (round : nat -> M -> res (M * R)) (m : M) : Prop :=
  forall p q eps max_it, bw_loop (round p) eps max_it None 0 m = bw_loop (round q) eps max_it None 0 m.

Theorem C44_mc_processes_agree : forall (m : mc R) (set : list (list string * Z)),
  wf_mc m -> substochastic (mc_mat m) -> pos_times set -> (forall tr t, In (tr, t) set -> 0 < mc_trace_prob_move m tr) ->
  same_runs (fun p => round_MC p set) m.
Proof.
  intros m set W S HT P p q eps mx.
  apply (loops_agree _ _ (fun x => (mc_ok x /\ (forall r, In r (mc_mat x) -> rsum r <= 1)) /\ forall tr t, In (tr, t) set -> 0 < mc_trace_prob_move x tr)).
  - intros x [[[Wx Nx] Sx] Px]. unfold round_MC, update_MC. rewrite !unwrap_any; [reflexivity| |];
      intros tr t I; rewrite (pw_mc x Wx), mcP_path; specialize (Px tr t I); destruct (Req_EM_T _ 0); try discriminate; lra.
  - intros x x' l [[O Sx] Px] Er. destruct (round_mc_mono x set p x' l O Sx HT Er) as [_ [_ Ps]].
    split; [split; [apply (round_mc_ok x set p x' l O Er HT)|]|].
    + apply (row_rule x set p x' l (fun v => v <= 1) O Er); [lra|exact Sx].
    + intros tr t I. apply (Ps tr t I). exact (Px tr t I).
  - split; [split; [split; [exact W|apply S]|apply S]|exact P].
Qed.
Print Assumptions C44_mc_processes_agree.
Theorem C44_hmm_processes_agree : forall (m : hmm R) (set : list (list string * Z)),
  wf_hmm m -> hmm_sub m -> pos_times set -> (forall tr t, In (tr, t) set -> 0 < hmm_trace_prob_move m tr) ->
  same_runs (fun p => round_HMM p set) m.
Proof.
  intros m set W S HT P p q eps mx.
  apply (loops_agree _ _ (fun x => (wf_hmm x /\ hmm_sub x) /\ forall tr t, In (tr, t) set -> 0 < hmm_trace_prob_move x tr)).
  - intros x [[Wx Sx] Px]. unfold round_HMM, update_HMM. rewrite !unwrap_any; [reflexivity| |];
      intros tr t I; rewrite (h_work x Wx set tr t I), hP_path; specialize (Px tr t I); destruct (Req_EM_T _ 0); try discriminate; lra.
  - intros x x' l [[Wx Sx] Px] Er. destruct (C39_hmm_round_likelihood x x' p set l Wx Sx HT Er) as [_ [_ Ps]].
    split; [eapply hmm_round_sub; eauto|]. intros tr t I. apply (Ps tr t I). exact (Px tr t I).
  - auto.
Qed.
Print Assumptions C44_hmm_processes_agree.
Theorem C44_mdp_processes_agree : forall (m : mdp R) (set : list (list string * Z)),
  wf_mdp m -> nonneg_mdp m -> mdp_rows (fun x => x <= 1) m -> pos_times set -> alternating_set set ->
  (forall tr t, In (tr, t) set -> 0 < mdp_trace_prob m tr) -> same_runs (fun p => round_MDP p set) m.
Proof.
  intros m set W N S HT A P p q eps mx.
  apply (loops_agree _ _ (fun x => (mdp_ok x /\ mdp_rows (fun x => x <= 1) x) /\ forall tr t, In (tr, t) set -> 0 < mdp_trace_prob x tr)).
  - intros x [[[Wx Nx] Sx] Px]. unfold round_MDP, update_MDP. rewrite !unwrap_any; [reflexivity| |];
      intros tr t I; rewrite (d_work x Wx set tr t I), (dP_path x tr Wx (A tr t I)); specialize (Px tr t I); destruct (Req_EM_T _ 0); try discriminate; lra.
  - intros x x' l [[[Wx Nx] Sx] Px] Er. destruct (C40_mdp_round_likelihood x x' p set l Wx Nx Sx HT A Er) as [_ [_ Ps]].
    split; [eapply mdp_round_sub; eauto; split; assumption|]. intros tr t I. apply (Ps tr t I). exact (Px tr t I).
  - split; [split; [split; assumption|exact S]|exact P].
Qed.
Print Assumptions C44_mdp_processes_agree.
Theorem C44_ctmc_timed_processes_agree : forall (m : ctmc R) (fixed : list (list bool)) set,
  wf_ctmc m -> nonneg_mat (ct_mat m) -> timed_set set -> pos_times set ->
  (forall tr t, In (tr, t) set -> 0 < ct_density m tr) -> same_runs (fun p => round_CTMC_timed p fixed set) m.
Proof.
  intros m fixed set W N A HT P p q eps mx.
  apply (loops_agree _ _ (fun x => ct_ok x /\ forall tr t, In (tr, t) set -> 0 < ct_density x tr)).
  - intros x [[Wx Nx] Px]. unfold round_CTMC_timed, update_CTMC. rewrite !unwrap_any; [reflexivity| |];
      intros tr t I; rewrite (t_work x Wx fixed set tr t I), tP_path by apply (A tr t I); specialize (Px tr t I); destruct (Req_EM_T _ 0); try discriminate; lra.
  - intros x x' l [[Wx Nx] Px] Er. destruct (C41_ctmc_timed_round_likelihood x x' fixed p set l Wx Nx A HT Er) as [_ [_ Ps]].
    split; [apply (round_ct_ok x fixed set p x' l (conj Wx Nx) A HT Er)|]. intros tr t I. apply (Ps tr t I). exact (Px tr t I).
  - split; [split; assumption|exact P].
Qed.
Print Assumptions C44_ctmc_timed_processes_agree.
Theorem C44_gohmm_processes_agree : forall (d : nat) (m : gohmm R) set,
  wf_gohmm d m -> go_full d m -> obs_dim d set -> pos_times set -> varied d set -> same_runs (fun p => round_GoHMM p d set) m.
Proof.
  intros d m set W F Hd HT V p q eps mx.
  apply (loops_agree _ _ (fun x => wf_gohmm d x /\ go_full d x)).
  - intros x [Wx Fx]. unfold round_GoHMM, update_GoHMM. pose proof Fx as (_ & Sg & _). rewrite !unwrap_any; [reflexivity| |];
      intros tr t I; rewrite (g_work x d Wx Sg set Hd tr t I); pose proof (full_P d x Fx tr (Hd tr t I)); destruct (Req_EM_T _ 0); try discriminate; lra.
  - intros x x' l [Wx Fx] Er. pose proof Fx as (_ & Sg & _). split.
    + apply (round_go_ok d x set p x' l (conj Wx (full_nonneg d x Wx Fx)) Sg Hd Er HT).
    + eapply round_full; eauto.
  - auto.
Qed.
Print Assumptions C44_gohmm_processes_agree.

(** With several processes impossible traces are ignored; with one process they
    make the round fail with TypeError. *)
Theorem C44_mc_one_process_fails : forall (m : mc R) (p : nat) (set : list (list string * Z)),
  wf_mc m -> (p <= 1)%nat -> (exists tr t, In (tr, t) set /\ mc_trace_prob_move m tr = 0) -> round_MC p set m = Err TypeError.
Proof.
  intros m p set W Hp [tr [t [I Z]]]. unfold round_MC, update_MC. rewrite unwrap_run_one_err; [reflexivity|exact Hp|].
  exists (tr, t). split; [exact I|]. cbn [fst snd]. rewrite (pw_mc m W), mcP_path. destruct (Req_EM_T _ 0); [reflexivity|contradiction].
Qed.
Print Assumptions C44_mc_one_process_fails.
Theorem C44_mc_processes_refuted : exists (m m' : mc R) (set : list (list string * Z)) (ll : R),
  wf_mc m /\ stochastic (mc_mat m) /\ rsum (mc_ini m) = 1 /\ pos_times set /\
  round_MC 2 set m = Ok (m', ll) /\ round_MC 1 set m = Err TypeError.
Proof.
  set (bad := [(["init"; "a"]%string, 1%Z); (["a"]%string, 1%Z)]).
  assert (P1 : mc_trace_prob_move ex_mc ["a"%string] = 0) by (unfold mc_trace_prob_move, trace_prob, is_label, sumL; cbn; lra).
  assert (P2 : 0 < mc_trace_prob_move ex_mc ["init"; "a"]%string) by (unfold mc_trace_prob_move, trace_prob, is_label, sumL; cbn; lra).
  destruct (round_mc_succeeds ex_mc bad 2) as [m' [ll E]].
  - split; [exact ex_mc_wf|apply ex_mc_stoch].
  - exists ["init"; "a"]%string, 1%Z. split; [left; reflexivity|exact P2].
  - left; lia.
  - exists ex_mc, m', bad, ll. split; [exact ex_mc_wf|]. split; [exact ex_mc_stoch|]. split; [cbn; lra|]. split; [intros x [<-|[<-|[]]]; cbn; lia|].
    split; [exact E|]. apply C44_mc_one_process_fails; [exact ex_mc_wf|lia|]. exists ["a"%string], 1%Z. split; [right; left; reflexivity|exact P1].
Qed.
Print Assumptions C44_mc_processes_refuted.
(** The hypotheses of the positive results hold for the examples of each class. *)
Example C44_instance : same_runs (fun p => round_MC p (weighted ex_set)) ex_mc.
Proof.
  destruct C34_C37_C38_C42_instance as (W & S & HT & _ & P & _). apply C44_mc_processes_agree; auto.
  split; [apply S|]. intros r I. rewrite (proj2 S r I). lra.
Qed.

(** ** C74 *)
(** In chains without absorbing states every trace the likelihood function
    considers possible takes part in learning. *)
Theorem C74_mc_traces_used_partial : forall (m : mc R) (tr : list string) (t : Z),
  wf_mc m -> stochastic (mc_mat m) -> tr <> [] -> 0 < mc_trace_prob m tr -> processWork_MC m tr t <> None.
Proof.
  intros m tr t W [N S] NE P. rewrite (pw_mc m W), mcP_path. rewrite (move_trace m tr W S NE). destruct (Req_EM_T _ 0); [lra|discriminate].
Qed.
Print Assumptions C74_mc_traces_used_partial.
Theorem C74_hmm_traces_used_partial : forall (m : hmm R) (tr : list string) (t : Z),
  wf_hmm m -> stochastic (hmm_mat m) -> tr <> [] -> 0 < hmm_trace_prob m tr -> processWork_HMM m tr t <> None.
Proof.
  intros m tr t W [N S] NE P. rewrite (h_work m W [(tr, t)] tr t (or_introl eq_refl)), hP_path. rewrite (hmm_move_trace m tr W S NE).
  destruct (Req_EM_T _ 0); [lra|discriminate].
Qed.
Print Assumptions C74_hmm_traces_used_partial.
(** MDP traces are alternating: no extra move is needed after the last observation. *)
Theorem C74_mdp_traces_used : forall (m : mdp R) (tr : list string) (t : Z),
  wf_mdp m -> alternating tr -> 0 < mdp_trace_prob m tr -> processWork_MDP m tr t <> None.
Proof.
  intros m tr t W A P. rewrite (d_work m W [(tr, t)] tr t (or_introl eq_refl)), (dP_path m tr W A). destruct (Req_EM_T _ 0); [lra|discriminate].
Qed.
Print Assumptions C74_mdp_traces_used.
(** A chain with an absorbing state: the trace ending there is possible for
    logLikelihood (probability 1) but is not used for learning; alone in a training
    set it makes fit fail. *)
Theorem C74_mc_traces_used_refuted : exists (m : mc R) (tr : list string),
  wf_mc m /\ stochastic01 (mc_mat m) /\ rsum (mc_ini m) = 1 /\ mc_trace_prob m tr = 1 /\
  (forall t, processWork_MC m tr t = None) /\
  (forall p eps max_it, bw_loop (round_MC p [(tr, 1%Z)]) eps (S max_it) None 0 m = Err TypeError).
Proof.
  set (m := mkMC [[0; 1]; [0; 0]] ["init"; "a"]%string [1; 0] "abs"%string : mc R).
  assert (W : wf_mc m).
  { unfold wf_mc, square, mc_n; cbn. repeat split; auto; try (intros r [<-|[<-|[]]]; reflexivity). intros v [<-|[<-|[]]]; lra. }
  assert (Z : mc_trace_prob_move m ["init"; "a"]%string = 0) by (unfold mc_trace_prob_move, trace_prob, is_label, sumL; cbn; lra).
  assert (P : forall t, processWork_MC m ["init"; "a"]%string t = None).
  { intros t. rewrite (pw_mc m W), mcP_path, Z. destruct (Req_EM_T 0 0); [reflexivity|lra]. }
  exists m, ["init"; "a"]%string. split; [exact W|]. split.
  { split; intros r [<-|[<-|[]]]; [| |right; cbn; lra|left; cbn; lra]; intros v [<-|[<-|[]]]; lra. }
  split; [cbn; lra|]. split; [unfold mc_trace_prob, trace_prob, is_label, sumL; cbn; lra|]. split; [exact P|].
  intros p eps mx. cbn [bw_loop]. unfold round_MC, update_MC, runProcesses. cbn [map fst snd]. rewrite P.
  destruct (1 <? p)%nat; cbn; reflexivity.
Qed.
Print Assumptions C74_mc_traces_used_refuted.

(** ** C76 *)
Lemma last_round {M} (round : M -> res (M * R)) eps (I : M -> Prop) :
  (forall m m' l, I m -> round m = Ok (m', l) -> I m') ->
  forall fuel prev c m m' c' ll b, I m -> bw_loop round eps fuel prev c m = Ok (m', c', ll, b) ->
  (fuel = 0%nat /\ ll = prev /\ m' = m) \/ exists m0 l, I m0 /\ round m0 = Ok (m', l) /\ ll = Some l.
Proof.
  intros HI. induction fuel as [|fuel IH]; intros prev c m m' c' ll b Im E; cbn [bw_loop] in E.
  - inversion E; subst. left; auto.
  - destruct (round m) as [[m1 l1]|] eqn:Er; [|discriminate]. cbn [bind] in E.
    destruct (match prev with None => false | Some p => _ end).
    + inversion E; subst. right; eauto.
    + destruct (IH _ _ _ _ _ _ _ (HI _ _ _ Im Er) E) as [(Z & -> & ->)|H]; [right; exists m, l1; auto|right; exact H].
Qed.
Lemma reported_between {M} (round : M -> res (M * R)) eps (I : M -> Prop) (L : M -> R) :
  (forall m m' l, I m -> round m = Ok (m', l) -> I m' /\ l = L m /\ L m <= L m') ->
  forall mx m m' c v, I m -> fit_info (bw_loop round eps mx None 0 m) = Ok (m', c, v) ->
  L m <= v <= L m' /\ exists m0, round m0 = Ok (m', v) /\ v = L m0.
Proof.
  intros HI mx m m' c v Im E. unfold fit_info in E.
  destruct (bw_loop _ _ _ _ _ _) as [[[[x k] ll] b]|] eqn:B; [|discriminate]. cbn [bind] in E. destruct ll as [l|]; [|discriminate]. inversion E; subst x k l.
  apply (last_round _ _ (fun x => I x /\ L m <= L x)) in B.
  - destruct B as [(_ & H & _)|(m0 & l & [I0 M0] & Er & H)]; [discriminate|]. inversion H; subst l.
    destruct (HI m0 m' v I0 Er) as (_ & V & M'). split; [lra|]. exists m0. auto.
  - intros x x' l [Ix Mx] Er. destruct (HI x x' l Ix Er) as (Ix' & _ & Mx'). split; [exact Ix'|lra].
  - split; [exact Im|lra].
Qed.
(** The reported value is the likelihood of the model BEFORE the last update: it is
    at least the likelihood of the initial model, and a lower bound for the
    likelihood of the returned model. *)
Theorem C76_mc_reported_likelihood_partial : forall (m m' : mc R) (p max_it c : nat) (set : list (list string * Z)) (eps v : R),
  wf_mc m -> substochastic (mc_mat m) -> pos_times set ->
  fit_info (bw_loop (round_MC p set) eps max_it None 0 m) = Ok (m', c, v) ->
  set_ll (mc_trace_prob_move m) set <= v <= set_ll (mc_trace_prob_move m') set /\
  exists m0, round_MC p set m0 = Ok (m', v) /\ v = set_ll (mc_trace_prob_move m0) set.
Proof.
  intros m m' p mx c set eps v W S HT. apply (reported_between _ _ (fun x => mc_ok x /\ forall r, In r (mc_mat x) -> rsum r <= 1) (fun x => set_ll (mc_trace_prob_move x) set)).
  - intros x x' l [Ox Sx] Er. destruct (round_mc_mono x set p x' l Ox Sx HT Er) as [V [M _]]. split; [|auto].
    split; [apply (round_mc_ok x set p x' l Ox Er HT)|apply (row_rule x set p x' l (fun v => v <= 1) Ox Er); [lra|exact Sx]].
  - split; [split; [exact W|apply S]|apply S].
Qed.
Print Assumptions C76_mc_reported_likelihood_partial.
Theorem C76_hmm_reported_likelihood_partial : forall (m m' : hmm R) (p max_it c : nat) (set : list (list string * Z)) (eps v : R),
  wf_hmm m -> hmm_sub m -> pos_times set ->
  fit_info (bw_loop (round_HMM p set) eps max_it None 0 m) = Ok (m', c, v) ->
  set_ll (hmm_trace_prob_move m) set <= v <= set_ll (hmm_trace_prob_move m') set /\
  exists m0, round_HMM p set m0 = Ok (m', v) /\ v = set_ll (hmm_trace_prob_move m0) set.
Proof.
  intros m m' p mx c set eps v W S HT. apply (reported_between _ _ (fun x => wf_hmm x /\ hmm_sub x) (fun x => set_ll (hmm_trace_prob_move x) set)); [|auto].
  intros x x' l [Wx Sx] Er. destruct (C39_hmm_round_likelihood x x' p set l Wx Sx HT Er) as (V & M & _). split; [apply (hmm_round_sub x set p x' l Wx Sx HT Er)|auto].
Qed.
Print Assumptions C76_hmm_reported_likelihood_partial.
Theorem C76_mdp_reported_likelihood_partial : forall (m m' : mdp R) (p max_it c : nat) (set : list (list string * Z)) (eps v : R),
  wf_mdp m -> nonneg_mdp m -> mdp_rows (fun x => x <= 1) m -> pos_times set -> alternating_set set ->
  fit_info (bw_loop (round_MDP p set) eps max_it None 0 m) = Ok (m', c, v) ->
  set_ll (mdp_trace_prob m) set <= v <= set_ll (mdp_trace_prob m') set /\
  exists m0, round_MDP p set m0 = Ok (m', v) /\ v = set_ll (mdp_trace_prob m0) set.
Proof.
  intros m m' p mx c set eps v W N S HT A. apply (reported_between _ _ (fun x => mdp_ok x /\ mdp_rows (fun x => x <= 1) x) (fun x => set_ll (mdp_trace_prob x) set)).
  - intros x x' l [[Wx Nx] Sx] Er. destruct (C40_mdp_round_likelihood x x' p set l Wx Nx Sx HT A Er) as (V & M & _). split; [apply (mdp_round_sub x set p x' l (conj Wx Nx) Sx HT Er)|auto].
  - split; [split; assumption|exact S].
Qed.
Print Assumptions C76_mdp_reported_likelihood_partial.
Theorem C76_ctmc_timed_reported_likelihood_partial : forall (m m' : ctmc R) (fixed : list (list bool)) (p max_it c : nat) set (eps v : R),
  wf_ctmc m -> nonneg_mat (ct_mat m) -> timed_set set -> pos_times set ->
  fit_info (bw_loop (round_CTMC_timed p fixed set) eps max_it None 0 m) = Ok (m', c, v) ->
  set_ll (ct_density m) set <= v <= set_ll (ct_density m') set /\
  exists m0, round_CTMC_timed p fixed set m0 = Ok (m', v) /\ v = set_ll (ct_density m0) set.
Proof.
  intros m m' fixed p mx c set eps v W N A HT. apply (reported_between _ _ ct_ok (fun x => set_ll (ct_density x) set)); [|split; assumption].
  intros x x' l [Wx Nx] Er. destruct (C41_ctmc_timed_round_likelihood x x' fixed p set l Wx Nx A HT Er) as (V & M & _). split; [apply (round_ct_ok x fixed set p x' l (conj Wx Nx) A HT Er)|auto].
Qed.
Print Assumptions C76_ctmc_timed_reported_likelihood_partial.
(** It can be strictly smaller; and with max_it = 0 nothing is reported. *)
Theorem C76_reported_likelihood_refuted : exists (m m' : mc R) (set : list (list string * Z)) (v : R) c,
  wf_mc m /\ stochastic (mc_mat m) /\ rsum (mc_ini m) = 1 /\ pos_times set /\
  fit_info (bw_loop (round_MC 1 set) (1/100) 1 None 0 m) = Ok (m', c, v) /\ v < set_ll (mc_trace_prob_move m') set /\
  fit_info (bw_loop (round_MC 1 set) (1/100) 0 None 0 m) = Err UnboundLocalError.
Proof.
  set (m := mkMC [[1/2; 1/2]; [0; 1]] ["init"; "a"]%string [1; 0] "e"%string : mc R). set (ts := [(["init"; "a"]%string, 1%Z)]).
  assert (W : wf_mc m).
  { unfold wf_mc, square, mc_n; cbn. repeat split; auto; try (intros r [<-|[<-|[]]]; reflexivity). intros v [<-|[<-|[]]]; lra. }
  assert (S : stochastic (mc_mat m)).
  { split; intros r [<-|[<-|[]]]; [| |cbn; lra|cbn; lra]; intros v [<-|[<-|[]]]; lra. }
  assert (P : mc_trace_prob_move m ["init"; "a"]%string = 1/2) by (unfold mc_trace_prob_move, trace_prob, is_label, sumL; cbn; lra).
  assert (HT : pos_times ts) by (intros x [<-|[]]; cbn; lia).
  destruct (round_mc_succeeds m ts 1) as [m' [ll E]].
  { split; [exact W|apply S]. }
  { exists ["init"; "a"]%string, 1%Z. split; [left; reflexivity|lra]. }
  { right. intros tr t [I|[]]. inversion I; subst. lra. }
  destruct (C73_mc_round_is_ratio_of_expectations m m' 1 ts ll W (proj1 S) E) as (La & Ii & _ & Sq & V & G). cbn zeta in G.
  assert (V1 : set_expected (mc_trace_prob_move m) (mc_expected_visits m 0) ts = 1).
  { unfold set_expected, ts, sumL. cbn [map fst snd rsum fold_right]. rewrite P. destruct (Rlt_dec _ _); [|lra]. unfold mc_expected_visits, expected, is_label, sumL, on_leave; cbn. lra. }
  assert (V2 : set_expected (mc_trace_prob_move m) (mc_expected_moves m 0 1) ts = 1).
  { unfold set_expected, ts, sumL. cbn [map fst snd rsum fold_right]. rewrite P. destruct (Rlt_dec _ _); [|lra]. unfold mc_expected_moves, expected, is_label, sumL, on_move; cbn. lra. }
  pose proof (G 0%nat 1%nat ltac:(cbn; lia) ltac:(cbn; lia)) as G01. rewrite V1, V2 in G01. destruct (Req_EM_T 1 0); [lra|].
  assert (O1 : mc_ok m) by (split; [exact W|apply S]).
  destruct (round_mc_ok m ts 1 m' ll O1 E HT) as [[W' N'] [n' [L' [I' _]]]].
  assert (R1 : forall r, In r (mc_mat m') -> rsum r = 1) by (apply (row_rule m ts 1 m' ll (fun v => v = 1) O1 E eq_refl), S).
  assert (P' : mc_trace_prob_move m' ["init"; "a"]%string = 1).
  { rewrite move_trace by (assumption || discriminate). unfold mc_trace_prob. rewrite n', L', I'. unfold trace_prob, is_label, sumL.
    revert G01. generalize (matR (mc_mat m')). intros A G01. cbn in *. rewrite G01. lra. }
  exists m, m', ts, ll, 1%nat. split; [exact W|]. split; [exact S|]. split; [cbn; lra|]. split; [exact HT|]. split.
  { unfold fit_info. cbn [bw_loop]. rewrite E. reflexivity. }
  split; [|reflexivity]. rewrite V. unfold set_ll, ts, sumL. cbn [map fst snd rsum fold_right]. rewrite P, P'.
  destruct (Rlt_dec 0 1); [|lra]. destruct (Rlt_dec 0 (1/2)); [|lra]. rewrite ln_1. pose proof (ln_increasing (1/2) 1 ltac:(lra) ltac:(lra)). rewrite ln_1 in H. lra.
Qed.
Print Assumptions C76_reported_likelihood_refuted.

(** ** C77 *)
Theorem C77_enough_cpus_partial : forall (A : Type) (cpus : Z) (multi one : res A), (2 <= cpus)%Z -> logLikelihood_on true cpus multi one = multi.
Proof. intros A cpus multi one H. unfold logLikelihood_on, Pool_new. destruct (Z.ltb_spec (cpus - 1) 1); [lia|reflexivity]. Qed.
Print Assumptions C77_enough_cpus_partial.
(** With a single CPU the pool cannot be created. *)
Theorem C77_single_cpu_refuted : exists (m : mc R) (s : tset (list string)) v,
  wf_mc m /\ stochastic (mc_mat m) /\ rsum (mc_ini m) = 1 /\ usable s /\
  logLikelihood_on true 2 (mc_logLikelihood m s) (do x <- mc_logLikelihood_1 m s; Ok (fst x)) = Ok v /\
  logLikelihood_on true 1 (mc_logLikelihood m s) (do x <- mc_logLikelihood_1 m s; Ok (fst x)) = Err ValueError.
Proof.
  destruct C34_C37_C38_C42_instance as (W & S & HT & U & _). exists ex_mc, ex_set, (avg_ll (mc_trace_prob ex_mc) (weighted ex_set)).
  split; [exact W|]. split; [exact S|]. split; [cbn; lra|]. split; [exact U|]. split; [|reflexivity].
  rewrite C77_enough_cpus_partial by lia. apply C27_mc_logLikelihood; assumption.
Qed.
Print Assumptions C77_single_cpu_refuted.
(** fit itself works on every machine: the pool is created only with a valid number
    of processes, a valid explicit request is honoured, and otherwise one CPU is
    left free (on Linux; elsewhere a single process is used). *)
Theorem C77_fit_any_cpus : forall (linux : bool) (cpus : Z) (arg : option Z), (1 <= cpus)%Z ->
  fit_pool (fit_processes linux cpus arg) = Ok tt /\
  (fit_processes linux cpus arg <= cpus)%Z /\
  (forall p, linux = true -> arg = Some p -> (1 <= p <= cpus)%Z -> fit_processes linux cpus arg = p) /\
  (linux = true -> (forall p, arg = Some p -> ~ (1 <= p <= cpus)%Z) -> fit_processes linux cpus arg = (cpus - 1)%Z) /\
  (linux = false -> fit_processes linux cpus arg = 1%Z).
Proof.
  assert (OK : forall k, fit_pool k = Ok tt).
  { intros k. unfold fit_pool, Pool_new. rewrite Z.gtb_ltb. destruct (Z.ltb_spec 1 k); [|reflexivity]. destruct (Z.ltb_spec k 1); [lia|reflexivity]. }
  intros linux cpus arg H. split; [apply OK|]. unfold fit_processes. rewrite ?Z.gtb_ltb.
  destruct linux; [destruct arg as [p|]|].
  - rewrite Z.gtb_ltb. split; [destruct (Z.ltb_spec cpus p); cbn; [|destruct (Z.ltb_spec p 1); cbn]; lia|].
    split; [intros q _ E Hq; injection E as <-; destruct (Z.ltb_spec cpus p); cbn; [|destruct (Z.ltb_spec p 1); cbn]; lia|]. split; [|discriminate].
    intros _ Hp. specialize (Hp p eq_refl). destruct (Z.ltb_spec cpus p); cbn; [|destruct (Z.ltb_spec p 1); cbn]; lia.
  - split; [lia|]. split; [intros; discriminate|]. split; [reflexivity|discriminate].
  - split; [lia|]. split; [intros; discriminate|]. split; [discriminate|reflexivity].
Qed.
Print Assumptions C77_fit_any_cpus.
