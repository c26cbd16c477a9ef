(** Theorems about learning continuous-time Markov chains from untimed traces:
    C41, C42, C46, C73. *)
From Coq Require Import String ZArith Bool Reals List Lia Lra FunctionalExtensionality.
From Verif Require Import Num Py SNum SPath LSum MSet SSet LSet MModels MLik MBW LFB LEM SBW LBW LBWSet LBWMC SLik LPath LLik LLik2 LBWLoop LBWPath SExp LEMGen LBWMDP LBWCT PLik LFit PBWMC PBWCT.
Import ListNotations.
Local Open Scope R_scope.

(** The jump chain: the discrete-time chain of the successive states. *)
Definition jump_chain (m : ctmc R) : mc R :=
  mkMC (vbuild (ct_n m) (fun s => vbuild (ct_n m) (jump m s))) (ct_lab m) (ct_ini m) (ct_name m).
(** No state is absorbing. *)
Definition live (m : ctmc R) : Prop := forall s, (s < ct_n m)%nat -> 0 < exit_rate m s.

Lemma jc_n m : mc_n (jump_chain m) = ct_n m.
Proof. apply vbuild_length. Qed.
Lemma jc_square m : square (ct_n m) (mc_mat (jump_chain m)).
Proof. split; [apply vbuild_length|]. intros r Ir. apply in_map_iff in Ir. destruct Ir as [s [<- _]]. apply vbuild_length. Qed.
Lemma jc_wf m : wf_ctmc m -> wf_mc (jump_chain m).
Proof. intros W. unfold wf_mc. rewrite jc_n. split; [apply jc_square|]. apply W. Qed.
Lemma matR_out (mat : list (list R)) n s s' : square n mat -> ~ ((s < n)%nat /\ (s' < n)%nat) -> matR mat s s' = 0.
Proof.
  intros [L H] Ho. unfold matR. destruct (Nat.lt_ge_cases s n) as [Hs|Hs].
  - apply nth_overflow. rewrite (H (nth s mat [])) by (apply nth_In; lia). lia.
  - rewrite (nth_overflow mat) by lia. destruct s'; reflexivity.
Qed.
Lemma jc_mat m s s' : wf_ctmc m -> matR (mc_mat (jump_chain m)) s s' = jump m s s'.
Proof.
  intros W. destruct (lt_dec s (ct_n m)) as [Hs|Hs]; [destruct (lt_dec s' (ct_n m)) as [Hs'|Hs']|].
  - unfold jump_chain. cbn [mc_mat]. change matR with (@mget R RNum) at 1. rewrite mget_vbuild by assumption. reflexivity.
  - unfold jump. rewrite (matR_out _ (ct_n m) s s' (jc_square m)), (matR_out _ (ct_n m) s s' (proj1 W)) by lia. unfold Rdiv. ring.
  - unfold jump. rewrite (matR_out _ (ct_n m) s s' (jc_square m)), (matR_out _ (ct_n m) s s' (proj1 W)) by lia. unfold Rdiv. ring.
Qed.
Lemma exit_nonneg m s : nonneg_mat (ct_mat m) -> 0 <= exit_rate m s.
Proof.
  intros N. unfold exit_rate. destruct (Nat.lt_ge_cases s (ct_n m)) as [Hs|Hs].
  - rewrite rsum_sumL. apply sumL_nonneg. intros x I. apply (N (nth s (ct_mat m) [])); [apply nth_In; exact Hs|exact I].
  - rewrite nth_overflow by exact Hs. cbn. lra.
Qed.
Lemma jump_nonneg m s s' : nonneg_mat (ct_mat m) -> 0 <= jump m s s'.
Proof.
  intros N. unfold jump, Rdiv. apply Rmult_le_pos; [apply (mget_nonneg _ s s' N)|].
  destruct (exit_nonneg m s N) as [H|H]; [left; apply Rinv_0_lt_compat; exact H|rewrite <- H, Rinv_0; lra].
Qed.
Lemma jc_nonneg m : nonneg_mat (ct_mat m) -> nonneg_mat (mc_mat (jump_chain m)).
Proof.
  intros N r Ir x Ix. unfold jump_chain in Ir. cbn [mc_mat] in Ir. apply in_map_iff in Ir. destruct Ir as [s [<- _]].
  apply in_map_iff in Ix. destruct Ix as [s' [<- _]]. apply jump_nonneg. exact N.
Qed.
Lemma jump_row_sum m s : wf_ctmc m -> (s < ct_n m)%nat -> exit_rate m s <> 0 -> Sum (ct_n m) (jump m s) = 1.
Proof.
  intros W Hs Hx. unfold jump. rewrite (Sum_ext (ct_n m) _ (fun i => / exit_rate m s * mget (ct_mat m) s i)) by (intros; unfold Rdiv; apply Rmult_comm).
  rewrite Sum_scal_l, <- (row_sum_Sum (ct_mat m) (ct_n m) s) by (auto; apply W). fold (exit_rate m s). field. exact Hx.
Qed.
Lemma jc_rows m : wf_ctmc m -> live m -> forall r, In r (mc_mat (jump_chain m)) -> rsum r = 1.
Proof.
  intros W Lv r Ir. unfold jump_chain in Ir. cbn [mc_mat] in Ir. apply in_map_iff in Ir. destruct Ir as [s [<- Is]]. apply in_seq in Is.
  rewrite rsum_vbuild. apply jump_row_sum; auto; [lia|]. specialize (Lv s). lra || (specialize (Lv ltac:(lia)); lra).
Qed.
Lemma jc_ok m : ct_ok m -> mc_ok (jump_chain m).
Proof. intros [W N]. split; [apply jc_wf; exact W|apply jc_nonneg; exact N]. Qed.
Lemma ct_tau_jc m : wf_ctmc m -> forall s s' o, ct_tau m s s' o = mc_tau (jump_chain m) s s' o.
Proof.
  intros W s s' o. unfold ct_tau, ct_l, mc_tau. cbn [mc_lab jump_chain].
  rewrite (String.eqb_sym o). destruct (negb _); nR; [unfold Rdiv; apply Rmult_0_l|].
  pose proof (jc_mat m s s' W) as J. change (matR (mc_mat (jump_chain m)) s s') with (@mget R RNum (mc_mat (jump_chain m)) s s') in J. rewrite J. reflexivity.
Qed.

Section U.
  Variable m : ctmc R.
  Hypothesis Hwf : wf_ctmc m.
  Notation n := (ct_n m).
  Notation W := (mc_ws (jump_chain m)).
  Notation fo := (fun (_ : list string) (_ : nat) => 1).
  Notation P := (Pof n (vget (ct_ini m)) W fo).
  Lemma u_ws tr : map (fun o ss s => ct_tau m ss s o) tr = W tr.
  Proof. unfold mc_ws. apply map_ext. intros o. extensionality ss. extensionality s. apply ct_tau_jc. exact Hwf. Qed.
  Lemma pw_untimed fixed tr t : processWork_CTMC_untimed m fixed tr t = if Req_EM_T (P tr) 0 then None else Some (cmk m fixed W fo (ones1 W) tr t).
  Proof.
    unfold processWork_CTMC_untimed. rewrite u_ws. rewrite (proba_model n (ct_ini m) (W tr) (ct_ini_len m Hwf)).
    change (tot n (vget (ct_ini m)) (W tr) (fun _ => 1)) with (P tr).
    nR. unfold Reqb. destruct (Req_EM_T (P tr) 0) as [EZ|NZ]; [reflexivity|]. unfold cmk. f_equal. f_equal.
    - apply vbuild_ext. intros s Hs. rewrite (stat_den_spec n) by (auto using ct_ini_len, vones_length). f_equal.
      unfold ones1. rewrite wsum_ones1 by apply gam_length. f_equal.
      apply gam_ext_f; [|exact Hs]. intros; apply vget_vones; assumption.
    - apply vbuild_ext. intros s Hs. apply vbuild_ext. intros s' Hs'. destruct (fixed_get fixed s s'); [reflexivity|].
      rewrite (stat_num_spec n); auto using ct_ini_len, vones_length.
      + f_equal. f_equal. apply xi_ext_f; [|exact Hs']. intros; apply vget_vones; assumption.
      + rewrite <- u_ws, map_map. reflexivity.
  Qed.
  Lemma u_P tr : P tr = mc_trace_prob_move (jump_chain m) tr.
  Proof. rewrite <- mcP_path. unfold mcP, Pof. rewrite jc_n. reflexivity. Qed.
  Hypothesis Hnn : nonneg_mat (ct_mat m).
  Lemma u_nonneg tr : 0 <= P tr.
  Proof. rewrite u_P, <- mcP_path. apply mcP_nonneg; [apply jc_nonneg; exact Hnn|apply Hwf]. Qed.
  Lemma u_DEN set s : (s < n)%nat -> cDEN m set W fo (ones1 W) s = set_expected (mc_trace_prob_move (jump_chain m)) (mc_expected_visits (jump_chain m) s) set.
  Proof. intros Hs. rewrite <- mcDEN_path by (rewrite jc_n; exact Hs). unfold cDEN, mcDEN. rewrite jc_n. reflexivity. Qed.
  Lemma u_XI set s s' : (s < n)%nat -> (s' < n)%nat -> cXI m set W fo s s' = set_expected (mc_trace_prob_move (jump_chain m)) (mc_expected_moves (jump_chain m) s s') set.
  Proof. intros Hs Hs'. rewrite <- mcNUM_path by (rewrite jc_n; assumption). unfold cXI, mcNUM. rewrite jc_n. reflexivity. Qed.
End U.

(** C73: a round on untimed traces replaces each free rate by the ratio of the
    expected numbers of moves and of visits in the jump chain. *)
Theorem C73_ctmc_untimed_round_is_ratio_of_expectations : forall (m m' : ctmc R) (fixed : list (list bool)) (p : nat) set (ll : R),
  wf_ctmc m -> nonneg_mat (ct_mat m) -> round_CTMC_untimed p fixed set m = Ok (m', ll) ->
  ct_lab m' = ct_lab m /\ ct_ini m' = ct_ini m /\ ct_name m' = ct_name m /\ square (ct_n m) (ct_mat m') /\
  ll = set_ll (mc_trace_prob_move (jump_chain m)) set /\
  forall s s', (s < ct_n m)%nat -> (s' < ct_n m)%nat ->
    let visits := set_expected (mc_trace_prob_move (jump_chain m)) (mc_expected_visits (jump_chain m) s) set in
    let moves := set_expected (mc_trace_prob_move (jump_chain m)) (mc_expected_moves (jump_chain m) s s') set in
    rate m' s s' = (if is_fixed fixed s s' then rate m s s' else 0) +
                   (if Req_EM_T visits 0 then rate m s s' else if is_fixed fixed s s' then 0 else moves / visits).
Proof.
  intros m m' fixed p set ll W N E.
  destruct (update_CTMC_spec m fixed set _ _ (ones1 (mc_ws (jump_chain m))) _ (fun x t _ => pw_untimed m W fixed x t) (fun x t _ => u_nonneg m W N x) p m' ll E)
    as (A & B & C & D & Sq & G & L & _).
  split; [exact A|]. split; [exact B|]. split; [exact C|]. split; [exact Sq|]. split.
  - rewrite L. apply set_ll_ext. intros; apply u_P.
  - intros s s' Hs Hs' visits moves. unfold rate. change matR with (@mget R RNum). rewrite G by assumption. unfold est, cNUM.
    rewrite u_DEN, u_XI by assumption. fold visits moves. change (fixed_get fixed s s') with (is_fixed fixed s s').
    destruct (is_fixed fixed s s'), (Req_EM_T visits 0); unfold Rdiv; ring.
Qed.
Print Assumptions C73_ctmc_untimed_round_is_ratio_of_expectations.

(** ** C46: a round on untimed traces is a round on the jump chain *)

Definition no_fixed (fixed : list (list bool)) : Prop := forall s s', is_fixed fixed s s' = false.
Definition visits (m : ctmc R) (set : list (list string * Z)) (s : nat) : R :=
  set_expected (mc_trace_prob_move (jump_chain m)) (mc_expected_visits (jump_chain m) s) set.

Lemma mat_eta (mat : list (list R)) n : square n mat -> mat = vbuild n (fun s => vbuild n (matR mat s)).
Proof.
  intros [L H]. apply (nth_ext _ _ [] []); [rewrite vbuild_length; exact L|]. intros s Hs. rewrite vbuild_nth by lia.
  assert (Lr : length (nth s mat []) = n) by (apply H; apply nth_In; exact Hs).
  apply (nth_ext _ _ 0 0); [rewrite vbuild_length; exact Lr|]. intros s' Hs'. rewrite vbuild_nth by lia. reflexivity.
Qed.
Lemma pw_jc m fixed : wf_ctmc m -> no_fixed fixed -> processWork_CTMC_untimed m fixed = processWork_MC (jump_chain m).
Proof.
  intros W NF. extensionality tr. extensionality t. rewrite pw_untimed by exact W. rewrite pw_mc by (apply jc_wf; exact W).
  unfold mcP, cmk, Pof. rewrite jc_n. cbn [mc_ini jump_chain]. destruct (Req_EM_T _ 0); [reflexivity|]. f_equal. f_equal.
  - apply vbuild_ext. intros s Hs. unfold ones1. rewrite wsum_ones1 by apply gam_length. reflexivity.
  - apply vbuild_ext. intros s Hs. apply vbuild_ext. intros s' Hs'.
    pose proof (NF s s') as F. change (is_fixed fixed s s') with (fixed_get fixed s s') in F. rewrite F. reflexivity.
Qed.
Lemma jc_fits m fixed p set : wf_ctmc m -> no_fixed fixed ->
  match round_CTMC_untimed p fixed set m, round_MC p set (jump_chain m) with
  | Ok (_, l), Ok (_, l') => l = l' | Err e, Err e' => e = e' | _, _ => False end.
Proof.
  intros W NF. unfold round_CTMC_untimed, update_CTMC, round_MC, update_MC. rewrite pw_jc by assumption.
  destruct (unwrap _) as [temp|e]; cbn [bind]; [|reflexivity]. destruct temp; reflexivity.
Qed.
Lemma round_untimed m fixed p set m' ll : ct_ok m -> live m -> no_fixed fixed -> pos_times set ->
  round_CTMC_untimed p fixed set m = Ok (m', ll) ->
  round_MC p set (jump_chain m) = Ok (jump_chain m', ll) /\ ct_ok m' /\ live m' /\ ct_frame m m' /\
  (forall s, (s < ct_n m)%nat -> exit_rate m' s = if Req_EM_T (visits m set s) 0 then exit_rate m s else 1).
Proof.
  intros [W N] Lv NF HT E. pose proof (jc_fits m fixed p set W NF) as F. rewrite E in F.
  destruct (round_MC p set (jump_chain m)) as [[c l]|] eqn:Ec; [subst l|destruct F].
  pose proof (jc_ok m (conj W N)) as OkJ.
  destruct (C73_ctmc_untimed_round_is_ratio_of_expectations m m' fixed p set ll W N E) as (A & B & C & Sq & L & K).
  destruct (C73_mc_round_is_ratio_of_expectations (jump_chain m) c p set ll (proj1 OkJ) (proj2 OkJ) Ec) as (A' & B' & C' & Sq' & _ & K').
  destruct (round_mc_ok _ _ _ _ _ OkJ Ec HT) as [OkC _].
  assert (Rows : forall r, In r (mc_mat c) -> rsum r = 1) by (apply (row_rule (jump_chain m) set p c ll (fun v => v = 1) OkJ Ec); auto; apply jc_rows; assumption).
  rewrite jc_n in Sq', K'.
  assert (K2 : forall s s', (s < ct_n m)%nat -> (s' < ct_n m)%nat -> rate m' s s' = if Req_EM_T (visits m set s) 0 then rate m s s' else matR (mc_mat c) s s').
  { intros s s' Hs Hs'. rewrite K, K' by assumption. rewrite NF. fold (visits m set s). destruct (Req_EM_T (visits m set s) 0); ring. }
  assert (nE : ct_n m' = ct_n m) by (apply (proj1 Sq)).
  assert (Ex : forall s, (s < ct_n m)%nat -> exit_rate m' s = if Req_EM_T (visits m set s) 0 then exit_rate m s else 1).
  { intros s Hs. unfold exit_rate. rewrite (row_sum_Sum (ct_mat m') (ct_n m) s Sq Hs).
    assert (G : Sum (ct_n m) (mget (ct_mat m') s) = Sum (ct_n m) (fun s' => if Req_EM_T (visits m set s) 0 then rate m s s' else matR (mc_mat c) s s')).
    { apply Sum_ext. intros s' Hs'. apply (K2 s s' Hs Hs'). }
    rewrite G. destruct (Req_EM_T (visits m set s) 0).
    - rewrite (row_sum_Sum (ct_mat m) (ct_n m) s (proj1 W) Hs). reflexivity.
    - rewrite <- (Rows (nth s (mc_mat c) [])) by (apply nth_In; rewrite (proj1 Sq'); exact Hs).
      symmetry. apply (row_sum_Sum (mc_mat c) (ct_n m) s Sq' Hs). }
  assert (W' : wf_ctmc m').
  { unfold wf_ctmc. rewrite nE, A, B. split; [exact Sq|]. apply W. }
  assert (J : jump_chain m' = c).
  { destruct c as [cm cl ci cn]. cbn [mc_lab mc_ini mc_name mc_mat] in *. change (cl = ct_lab m) in A'. change (ci = ct_ini m) in B'. change (cn = ct_name m) in C'. subst.
    unfold jump_chain at 1. rewrite nE, A, B, C. f_equal. rewrite (mat_eta cm (ct_n m) Sq').
    apply vbuild_ext. intros s Hs. apply vbuild_ext. intros s' Hs'. unfold jump. rewrite (Ex s Hs).
    change (matR (ct_mat m') s s') with (rate m' s s'). rewrite (K2 s s' Hs Hs').
    destruct (Req_EM_T (visits m set s) 0) as [V0|V0]; [|unfold Rdiv; rewrite Rinv_1; ring].
    rewrite K' by assumption. fold (visits m set s). destruct (Req_EM_T (visits m set s) 0); [|congruence].
    rewrite jc_mat by exact W. reflexivity. }
  split; [rewrite J; reflexivity|]. split; [split; [exact W'|]|].
  { intros r Ir x Ix. apply (mat_from_entries (ct_mat m') (ct_n m) (fun x => 0 <= x) Sq) with (r := r) (x := x); auto.
    intros s s' Hs Hs'. change (mget (ct_mat m') s s') with (rate m' s s'). rewrite K2 by assumption.
    destruct (Req_EM_T (visits m set s) 0); [apply (mget_nonneg _ s s' N)|apply (mget_nonneg _ s s' (proj2 OkC))]. }
  split; [|split; [repeat split; assumption|exact Ex]].
  intros s Hs. rewrite nE in Hs. rewrite Ex by exact Hs. destruct (Req_EM_T (visits m set s) 0); [apply Lv; exact Hs|lra].
Qed.

(** C46, what untimed learning does to the time scale: a state visited by the
    traces gets exit rate 1, whatever it was; the others keep theirs. *)
Theorem C46_ctmc_untimed_exit_rates : forall (m m' : ctmc R) (fixed : list (list bool)) (p : nat) set (ll : R),
  wf_ctmc m -> nonneg_mat (ct_mat m) -> live m -> no_fixed fixed -> pos_times set ->
  round_CTMC_untimed p fixed set m = Ok (m', ll) ->
  forall s, (s < ct_n m)%nat -> exit_rate m' s = if Req_EM_T (visits m set s) 0 then exit_rate m s else 1.
Proof. intros m m' fixed p set ll W N Lv NF HT E. apply (round_untimed m fixed p set m' ll); auto. split; assumption. Qed.
Print Assumptions C46_ctmc_untimed_exit_rates.

(** A whole run on untimed traces is the run of the jump chain, for every number
    of rounds. *)
Definition image (r : res (ctmc R * nat * option R * bool)) : res (mc R * nat * option R * bool) :=
  match r with Ok (m, c, l, b) => Ok (jump_chain m, c, l, b) | Err e => Err e end.
Theorem C46_ctmc_untimed_run_is_jump_chain_run : forall (m : ctmc R) (fixed : list (list bool)) (p max_it : nat) set (eps : R),
  wf_ctmc m -> nonneg_mat (ct_mat m) -> live m -> no_fixed fixed -> pos_times set ->
  bw_loop (round_MC p set) eps max_it None 0 (jump_chain m) = image (bw_loop (round_CTMC_untimed p fixed set) eps max_it None 0 m).
Proof.
  intros m fixed p mx set eps W N Lv NF HT. generalize (@None R) as prev. generalize 0%nat as c0. revert m W N Lv.
  induction mx as [|mx IH]; intros m W N Lv c0 prev; cbn [bw_loop]; [reflexivity|].
  pose proof (jc_fits m fixed p set W NF) as F.
  destruct (round_CTMC_untimed p fixed set m) as [[m' ll]|e] eqn:E.
  - destruct (round_untimed m fixed p set m' ll (conj W N) Lv NF HT E) as (Er & [W' N'] & Lv' & _). rewrite Er. cbn [bind].
    destruct (match prev with None => false | Some q => _ end); [reflexivity|]. apply IH; assumption.
  - destruct (round_MC p set (jump_chain m)) as [[c l]|e'] eqn:Ec; [destruct F|]. subst. reflexivity.
Qed.
Print Assumptions C46_ctmc_untimed_run_is_jump_chain_run.

Lemma jc_trace_prob m tr : wf_ctmc m -> mc_trace_prob (jump_chain m) tr = ct_trace_prob m tr.
Proof.
  intros W. unfold mc_trace_prob, ct_trace_prob. rewrite jc_n. cbn [mc_ini mc_lab jump_chain].
  replace (matR (mc_mat (jump_chain m))) with (jump m); [reflexivity|].
  extensionality s. extensionality s'. symmetry. apply (jc_mat m s s' W).
Qed.
(** C41, untimed traces: learning does not decrease the value of logLikelihood. *)
Theorem C41_ctmc_untimed_fit_improves_logLikelihood : forall (m m' : ctmc R) (fixed : list (list bool)) (p max_it c : nat) (s : tset (list string)) (eps : R) ll stopped,
  wf_ctmc m -> nonneg_mat (ct_mat m) -> live m -> no_fixed fixed -> usable s ->
  bw_loop (round_CTMC_untimed p fixed (weighted s)) eps max_it None 0 m = Ok (m', c, ll, stopped) ->
  exists v v', ct_logLikelihood m s = Ok v /\ ct_logLikelihood m' s = Ok v' /\ v <= v'.
Proof.
  intros m m' fixed p mx c s eps ll st W N Lv NF U E.
  assert (HT : pos_times (weighted s)).
  { intros [tr t] I. apply in_combine_r in I. destruct U as [_ [Po _]]. specialize (Po t I). cbn. lia. }
  assert (W' : wf_ctmc m').
  { apply (bw_loop_inv _ _ (fun x => ct_ok x /\ live x)) in E; [apply E| |split; [split|]; assumption].
    intros x x' l [Ox Lx] Er. destruct (round_untimed x fixed p _ x' l Ox Lx NF HT Er) as (_ & O' & L' & _). split; assumption. }
  pose proof (C46_ctmc_untimed_run_is_jump_chain_run m fixed p mx (weighted s) eps W N Lv NF HT) as F. rewrite E in F. cbn [image] in F.
  destruct (C38_mc_fit_improves_logLikelihood (jump_chain m) (jump_chain m') p mx c s eps ll st) as (v & v' & A & B & C); auto.
  { apply jc_wf; exact W. }
  { split; [apply jc_nonneg; exact N|apply jc_rows; assumption]. }
  rewrite C27_mc_logLikelihood in A by (try apply jc_wf; assumption). rewrite C27_mc_logLikelihood in B by (try apply jc_wf; assumption).
  exists v, v'. rewrite !C27_ctmc_logLikelihood by assumption. rewrite <- A, <- B.
  split; [|split; [|exact C]]; f_equal; f_equal; extensionality tr; symmetry; apply jc_trace_prob; assumption.
Qed.
Print Assumptions C41_ctmc_untimed_fit_improves_logLikelihood.

(** C42 for untimed learning. *)
Theorem C42_ctmc_untimed_terminates : forall (m : ctmc R) (fixed : list (list bool)) (p : nat) (set : list (list string * Z)) (eps : R) (N : nat),
  wf_ctmc m -> nonneg_mat (ct_mat m) -> live m -> no_fixed fixed -> rsum (ct_ini m) <= 1 -> pos_times set -> 0 < eps ->
  (exists tr t, In (tr, t) set /\ 0 < mc_trace_prob_move (jump_chain m) tr) ->
  ((1 < p)%nat \/ forall tr t, In (tr, t) set -> 0 < mc_trace_prob_move (jump_chain m) tr) ->
  - set_ll (mc_trace_prob_move (jump_chain m)) set < INR N * eps ->
  exists m' c ll, (c <= S N)%nat /\
    forall max_it, (S N <= max_it)%nat -> bw_loop (round_CTMC_untimed p fixed set) eps max_it None 0 m = Ok (m', c, Some ll, true).
Proof.
  intros m fixed p set eps N W Nn Lv NF Hi HT He Ex Hp HN.
  destruct (C42_mc_terminates (jump_chain m) p set eps N) as (c' & c & ll & Hc & K); auto.
  { apply jc_wf; exact W. }
  { split; [apply jc_nonneg; exact Nn|]. intros r I. rewrite (jc_rows m W Lv r I). lra. }
  specialize (K (S N) (le_n _)). rewrite (C46_ctmc_untimed_run_is_jump_chain_run m fixed p (S N) set eps W Nn Lv NF HT) in K.
  destruct (bw_loop (round_CTMC_untimed p fixed set) eps (S N) None 0 m) as [[[[m' k] l] b]|] eqn:E; [|discriminate]. cbn [image] in K. inversion K; subst.
  exists m', c, ll. split; [exact Hc|]. intros mx Hmx. replace mx with (S N + (mx - S N))%nat by lia. apply bw_loop_more. exact E.
Qed.
Print Assumptions C42_ctmc_untimed_terminates.

(** C46 does not hold as stated: one round on the trace [x] divides the exit rate
    of a two-state chain by two. *)
Definition ex_untimed : ctmc R := mkCTMC [[0; 2]; [3; 0]] ["x"; "y"]%string [1; 0] "ex"%string.
Lemma ex_untimed_ok : wf_ctmc ex_untimed /\ nonneg_mat (ct_mat ex_untimed) /\ live ex_untimed.
Proof.
  split; [|split].
  - unfold wf_ctmc, square, ct_n; cbn. repeat split; auto.
    + intros r [<-|[<-|[]]]; reflexivity.
    + intros v [<-|[<-|[]]]; lra.
  - intros r [<-|[<-|[]]] v [<-|[<-|[]]]; lra.
  - intros s Hs. cbn in Hs. destruct s as [|[|s]]; [| |lia]; unfold exit_rate; cbn; lra.
Qed.
Definition ex_uset : list (list string * Z) := [(["x"; "y"; "x"]%string, 3%Z)].
Theorem C46_ctmc_untimed_exit_rates_refuted : exists (m m' : ctmc R) set (ll : R) (s : nat),
  wf_ctmc m /\ nonneg_mat (ct_mat m) /\ live m /\ pos_times set /\ (forall tr t, In (tr, t) set -> 0 < mc_trace_prob_move (jump_chain m) tr) /\
  bw_loop (round_CTMC_untimed 1 [] set) 1 1 None 0 m = Ok (m', 1%nat, Some ll, false) /\ (s < ct_n m)%nat /\ exit_rate m s = 2 /\ exit_rate m' s = 1.
Proof.
  destruct ex_untimed_ok as (W & N & Lv).
  assert (HT : pos_times ex_uset) by (intros st [<-|[]]; cbn; lia).
  assert (NF : no_fixed []) by (intros s s'; destruct s, s'; reflexivity).
  assert (P : forall tr t, In (tr, t) ex_uset -> 0 < mc_trace_prob_move (jump_chain ex_untimed) tr).
  { intros tr t [E|[]]; inversion E; subst. unfold mc_trace_prob_move, trace_prob, sumL, jump, exit_rate, is_label; cbn. unfold jump, exit_rate. cbn. lra. }
  destruct (round_mc_succeeds (jump_chain ex_untimed) ex_uset 1) as [c [ll Er]].
  { apply jc_ok; split; assumption. }
  { exists ["x"; "y"; "x"]%string, 3%Z. split; [left; reflexivity|]. apply (P _ 3%Z). left; reflexivity. }
  { right. exact P. }
  pose proof (jc_fits ex_untimed [] 1 ex_uset W NF) as F. rewrite Er in F.
  destruct (round_CTMC_untimed 1 [] ex_uset ex_untimed) as [[m' l]|] eqn:E; [|destruct F]. subst l.
  exists ex_untimed, m', ex_uset, ll, 0%nat.
  split; [exact W|]. split; [exact N|]. split; [exact Lv|]. split; [exact HT|]. split; [exact P|].
  split; [cbn [bw_loop]; rewrite E; reflexivity|]. split; [cbn; lia|]. split; [unfold exit_rate; cbn; lra|].
  rewrite (C46_ctmc_untimed_exit_rates ex_untimed m' [] 1 ex_uset ll W N Lv NF HT E) by (cbn; lia).
  destruct (Req_EM_T _ 0) as [V|V]; [exfalso; revert V|reflexivity].
  unfold visits, set_expected, ex_uset. cbn [map sumL fst snd]. unfold sumL. cbn [map nsum fold_right fst snd].
  unfold mc_expected_visits, mc_trace_prob_move, expected, trace_prob, sumL. cbn. unfold jump, exit_rate. cbn.
  destruct (Rlt_dec _ _); lra.
Qed.
Print Assumptions C46_ctmc_untimed_exit_rates_refuted.
