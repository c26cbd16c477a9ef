(** Theorems about learning continuous-time Markov chains: C33, C37, C41, C42, C45, C46, C73. *)
From Coq Require Import String ZArith Bool Reals List Lia Lra Permutation FunctionalExtensionality.
From Verif Require Import Num Py SNum SPath LSum MSet SSet LSet MModels MLik MBW LFB LEM SBW LBW LBWSet LBWMC SLik LPath LLik LLik2 LBWLoop LBWPath SExp LEMGen LBWMDP LBWCT PLik LFit PBWMC.
Import ListNotations.
Local Open Scope R_scope.

Notation tP m := (Pof (ct_n m) (vget (ct_ini m)) (tW m) (tf m)).

(** Timed traces: one dwell time between two observations, none negative. *)
Definition timed_set (set : list ((list string * list R) * Z)) : Prop :=
  forall tr t, In (tr, t) set -> length (fst tr) = S (length (snd tr)) /\ forall d, In d (snd tr) -> 0 <= d.
Definition rate (m : ctmc R) (s s' : nat) : R := matR (ct_mat m) s s'.
Definition is_fixed (fixed : list (list bool)) (s s' : nat) : bool := nth s' (nth s fixed []) false.

Lemma tP_path (m : ctmc R) tr : length (fst tr) = S (length (snd tr)) -> tP m tr = ct_density m tr.
Proof. destruct tr as [obs ts]. intros L. rewrite ct_density_tot by exact L. change (combine (removelast obs) ts) with (ots (obs, ts)). rewrite ct_ws_eq. reflexivity. Qed.
Lemma tW_wts m (tr : list string * list R) : tW m tr = wts (map (jump_density m) (snd tr)) (map (is_label (ct_lab m)) (removelast (fst tr))).
Proof. rewrite <- ct_ws_eq. apply ct_wts. Qed.
Lemma ne_of_len (tr : list string * list R) : length (fst tr) = S (length (snd tr)) -> fst tr <> [].
Proof. intros L E. rewrite E in L. discriminate. Qed.
Lemma obs_split (m : ctmc R) tr : length (fst tr) = S (length (snd tr)) ->
  map (is_label (ct_lab m)) (fst tr) = map (is_label (ct_lab m)) (removelast (fst tr)) ++ [tf m tr].
Proof. intros L. rewrite (app_removelast_last EmptyString (ne_of_len tr L)) at 1. rewrite map_app. reflexivity. Qed.
Lemma rl_len (tr : list string * list R) : length (fst tr) = S (length (snd tr)) -> length (removelast (fst tr)) = length (snd tr).
Proof. intros L. rewrite removelast_length, L. lia. Qed.
Lemma tc_eq (tr : list string * list R) : length (fst tr) = S (length (snd tr)) -> tc tr = snd tr.
Proof. intros L. unfold tc, ots. apply map_snd_combine. symmetry. apply rl_len. exact L. Qed.

(** ** C33 *)
Theorem C33_ctmc_timed_forward_backward : forall (m : ctmc R) (obs : list string) (ts : list R) (k : nat),
  wf_ctmc m -> length obs = S (length ts) -> (k <= length ts)%nat ->
  let ws := map (ct_w m) (combine (removelast obs) ts) in
  let mask := lab_mask (ct_n m) (ct_lab m) (last obs EmptyString) in
  Sum (ct_n m) (fun s => vecR (nth k (mask_last mask (bw_alphas (ct_n m) (ct_ini m) ws)) []) s
                        * vecR (nth k (bw_betas (ct_n m) (zipwith nmul (vones (ct_n m)) mask) ws) []) s)
  = ct_density m (obs, ts).
Proof.
  intros m obs ts k W L Hk ws mask. rewrite ct_density_tot by exact L. fold ws. change vecR with (@vget R RNum).
  rewrite fb_position_mask; [|apply W|apply lab_mask_length| |].
  - apply tot_ext_f. intros s Hs. apply lab_mask_get. exact Hs.
  - intros s Hs. unfold mask. rewrite lab_mask_get by exact Hs. apply is_label_01.
  - unfold ws. rewrite map_length, combine_length. pose proof (rl_len (obs, ts) L) as E. cbn [fst snd] in E. rewrite E. lia.
Qed.
Print Assumptions C33_ctmc_timed_forward_backward.

(** ** C73 *)
Section Exp.
  Variables (m : ctmc R) (set : list ((list string * list R) * Z)).
  Hypothesis A : timed_set set.
  Lemma tDEN_path s : (s < ct_n m)%nat -> cDEN m set (tW m) (tf m) tc s = set_expected (ct_density m) (ct_expected_dwell m s) set.
  Proof.
    intros Hs. unfold cDEN. rewrite (GA_expected _ _ _ _ _ (fun tr => map (jump_density m) (snd tr)) (fun tr => map (is_label (ct_lab m)) (removelast (fst tr)))); auto.
    - apply set_expected_ext; intros tr t I; destruct (A tr t I) as [L _].
      + rewrite <- obs_split by exact L. reflexivity.
      + intros _. unfold ct_expected_dwell, ct_expected. rewrite obs_split by exact L. rewrite tc_eq by exact L. reflexivity.
    - intros tr t I. apply tW_wts.
    - intros tr t I. destruct (A tr t I) as [L _]. rewrite !map_length. symmetry. apply rl_len. exact L.
    - intros tr t I. destruct (A tr t I) as [L _]. rewrite tc_eq by exact L. rewrite !map_length. symmetry. apply rl_len. exact L.
  Qed.
  Lemma tXI_path s s' : (s < ct_n m)%nat -> (s' < ct_n m)%nat -> cXI m set (tW m) (tf m) s s' = set_expected (ct_density m) (ct_expected_moves m s s') set.
  Proof.
    intros Hs Hs'. unfold cXI. rewrite (XI_expected _ _ _ _ _ (fun tr => map (jump_density m) (snd tr)) (fun tr => map (is_label (ct_lab m)) (removelast (fst tr)))); auto.
    - apply set_expected_ext; intros tr t I; destruct (A tr t I) as [L _].
      + rewrite <- obs_split by exact L. reflexivity.
      + intros _. unfold ct_expected_moves, ct_expected. rewrite obs_split by exact L. unfold ones1, tW. rewrite ew_length.
        unfold ots. rewrite combine_length, rl_len, Nat.min_id by exact L. rewrite map_const. reflexivity.
    - intros tr t I. apply tW_wts.
    - intros tr t I. destruct (A tr t I) as [L _]. rewrite !map_length. symmetry. apply rl_len. exact L.
    - intros tr t I. destruct (A tr t I) as [L _]. unfold ones1, tW. rewrite repeat_length, ew_length, map_length. unfold ots. rewrite combine_length, rl_len by exact L. lia.
  Qed.
End Exp.

(** Exact result of a round: free rates become expected number of moves divided by
    expected time spent; see C45 for the fixed ones. *)
Theorem C73_ctmc_timed_round_is_ratio_of_expectations : forall (m m' : ctmc R) (fixed : list (list bool)) (p : nat) set (ll : R),
  wf_ctmc m -> nonneg_mat (ct_mat m) -> timed_set set -> round_CTMC_timed p fixed set m = Ok (m', ll) ->
  let E X := set_expected (ct_density m) X set in
  ct_lab m' = ct_lab m /\ ct_ini m' = ct_ini m /\ ct_name m' = ct_name m /\ ct_n m' = ct_n m /\ square (ct_n m) (ct_mat m') /\
  ll = set_ll (ct_density m) set /\
  (forall s s', (s < ct_n m)%nat -> (s' < ct_n m)%nat -> is_fixed fixed s s' = false ->
    rate m' s s' = if Req_EM_T (E (ct_expected_dwell m s)) 0 then rate m s s' else E (ct_expected_moves m s s') / E (ct_expected_dwell m s)) /\
  (forall s s', (s < ct_n m)%nat -> (s' < ct_n m)%nat -> is_fixed fixed s s' = true ->
    rate m' s s' = if Req_EM_T (E (ct_expected_dwell m s)) 0 then 2 * rate m s s' else rate m s s').
Proof.
  intros m m' fixed p set ll W N A Er E.
  destruct (update_CTMC_spec m fixed set (tW m) (tf m) tc _ (t_work m W fixed set) (t_P_nonneg m W set N) p m' ll Er) as (B1 & B2 & B3 & B4 & B5 & G & L & _).
  repeat (split; [assumption|]). split.
  { rewrite L. apply set_ll_ext. intros tr t I. apply tP_path. apply (A tr t I). }
  assert (G' : forall s s', (s < ct_n m)%nat -> (s' < ct_n m)%nat ->
     rate m' s s' = rate m s s' * (if is_fixed fixed s s' then 1 else 0) +
       (if Req_EM_T (E (ct_expected_dwell m s)) 0 then rate m s s' else (if is_fixed fixed s s' then 0 else E (ct_expected_moves m s s')) / E (ct_expected_dwell m s))).
  { intros s s' Hs Hs'. change (rate m' s s') with (mget (ct_mat m') s s'). rewrite G by assumption. unfold est, cNUM. rewrite (tDEN_path m set A) by exact Hs. rewrite (tXI_path m set A) by assumption. reflexivity. }
  split; intros s s' Hs Hs' Fx; rewrite G', Fx by assumption; destruct (Req_EM_T _ 0); try ring; unfold Rdiv; ring.
Qed.
Print Assumptions C73_ctmc_timed_round_is_ratio_of_expectations.

(** ** Invariants of a round *)
Definition ct_ok (m : ctmc R) : Prop := wf_ctmc m /\ nonneg_mat (ct_mat m).
Definition ct_frame (m m' : ctmc R) : Prop := ct_n m' = ct_n m /\ ct_lab m' = ct_lab m /\ ct_ini m' = ct_ini m /\ ct_name m' = ct_name m.
Lemma timed_dw set : timed_set set -> forall x t, In (x, t) set -> forall d, In d (snd x) -> 0 <= d.
Proof. intros A x t I. apply (A x t I). Qed.
Lemma round_ct_ok m fixed set p m' ll : ct_ok m -> timed_set set -> pos_times set -> round_CTMC_timed p fixed set m = Ok (m', ll) -> ct_ok m' /\ ct_frame m m'.
Proof.
  intros [W N] A HT Er.
  destruct (update_CTMC_spec m fixed set (tW m) (tf m) tc _ (t_work m W fixed set) (t_P_nonneg m W set N) p m' ll Er) as (B1 & B2 & B3 & B4 & B5 & G & L & _).
  split; [split|repeat split; assumption].
  - destruct W as (W1 & W2 & W3 & W4). unfold wf_ctmc. rewrite B1, B2, B4. repeat (split; [assumption|]). assumption.
  - apply (t_nonneg' m W fixed set N HT (timed_dw set A) m' B5 G).
Qed.

Theorem C41_ctmc_timed_round_likelihood : forall (m m' : ctmc R) (fixed : list (list bool)) (p : nat) set (ll : R),
  wf_ctmc m -> nonneg_mat (ct_mat m) -> timed_set set -> pos_times set -> round_CTMC_timed p fixed set m = Ok (m', ll) ->
  ll = set_ll (ct_density m) set /\ set_ll (ct_density m) set <= set_ll (ct_density m') set /\
  (forall tr t, In (tr, t) set -> (0 < ct_density m tr <-> 0 < ct_density m' tr)).
Proof.
  intros m m' fixed p set ll W N A HT Er.
  destruct (update_CTMC_spec m fixed set (tW m) (tf m) tc _ (t_work m W fixed set) (t_P_nonneg m W set N) p m' ll Er) as (B1 & B2 & B3 & B4 & B5 & G & L & _).
  destruct (t_em_mono m W fixed set N HT (timed_dw set A) m' B1 B4 B5 G) as [M1 M2].
  assert (P' : forall tr t, In (tr, t) set -> Pof (ct_n m) (vget (ct_ini m)) (tW m') (tf m) tr = ct_density m' tr).
  { intros tr t I. rewrite <- tP_path by apply (A tr t I). rewrite B4, B2. unfold Pof, tf. rewrite B1. reflexivity. }
  assert (P0 : forall tr t, In (tr, t) set -> tP m tr = ct_density m tr) by (intros tr t I; apply tP_path; apply (A tr t I)).
  rewrite (set_ll_ext _ _ set P0) in L, M1. rewrite (set_ll_ext _ _ set P') in M1.
  split; [exact L|]. split; [exact M1|]. intros tr t It. rewrite <- (P0 tr t It), <- (P' tr t It). exact (M2 tr t It).
Qed.
Print Assumptions C41_ctmc_timed_round_likelihood.

Theorem C41_ctmc_timed_fit_likelihood : forall (m m' : ctmc R) (fixed : list (list bool)) (p max_it c : nat) set (eps : R) ll stopped,
  wf_ctmc m -> nonneg_mat (ct_mat m) -> timed_set set -> pos_times set ->
  bw_loop (round_CTMC_timed p fixed set) eps max_it None 0 m = Ok (m', c, ll, stopped) ->
  wf_ctmc m' /\ nonneg_mat (ct_mat m') /\ ct_frame m m' /\ set_ll (ct_density m) set <= set_ll (ct_density m') set.
Proof.
  intros m m' fixed p mx c set eps ll st W N A HT E.
  assert (F : ct_ok m' /\ ct_frame m m').
  { apply (bw_loop_inv _ _ (fun x => ct_ok x /\ ct_frame m x)) in E; [exact E| |split; [split; assumption|repeat split]].
    intros x x' l [O (F1 & F2 & F3 & F4)] Er. destruct (round_ct_ok x fixed set p x' l O A HT Er) as [O' (G1 & G2 & G3 & G4)].
    split; [exact O'|]. repeat split; congruence. }
  destruct F as [[W' N'] F]. repeat (split; [assumption|]).
  apply (bw_loop_mono _ _ ct_ok (fun x => set_ll (ct_density x) set)) in E; [apply E| |split; assumption].
  intros x x' l O Er. split; [apply (round_ct_ok x fixed set p x' l O A HT Er)|]. destruct O as [Wx Nx].
  apply (C41_ctmc_timed_round_likelihood x x' fixed p set l Wx Nx A HT Er).
Qed.
Print Assumptions C41_ctmc_timed_fit_likelihood.

(** ** C37 *)
Theorem C37_ctmc_timed_zero_stays_zero : forall (m m' : ctmc R) (fixed : list (list bool)) (p max_it c : nat) set (eps : R) ll stopped,
  wf_ctmc m -> nonneg_mat (ct_mat m) -> timed_set set -> pos_times set ->
  bw_loop (round_CTMC_timed p fixed set) eps max_it None 0 m = Ok (m', c, ll, stopped) ->
  forall s s', (s < ct_n m)%nat -> (s' < ct_n m)%nat -> rate m s s' = 0 -> rate m' s s' = 0.
Proof.
  intros m m' fixed p mx c set eps ll st W N A HT E.
  apply (bw_loop_inv _ _ (fun x => (ct_ok x /\ ct_frame m x) /\
    forall s s', (s < ct_n m)%nat -> (s' < ct_n m)%nat -> rate m s s' = 0 -> rate x s s' = 0)) in E.
  - apply E.
  - intros x x' l [[O (F1 & F2 & F3 & F4)] Z1] Er. destruct (round_ct_ok x fixed set p x' l O A HT Er) as [O' (G1 & G2 & G3 & G4)].
    split; [split; [exact O'|repeat split; congruence]|]. intros s s' Hs Hs' Z. destruct O as [Wx Nx].
    destruct (update_CTMC_spec x fixed set (tW x) (tf x) tc _ (t_work x Wx fixed set) (t_P_nonneg x Wx set Nx) p x' l Er) as (_ & _ & _ & _ & _ & G & _).
    apply (t_zero' x fixed set x' G s s'); try (rewrite F1; assumption). apply Z1; assumption.
  - split; [split; [split; assumption|repeat split]|auto].
Qed.
Print Assumptions C37_ctmc_timed_zero_stays_zero.

(** ** C45 *)
(** Fixed rates of the states in which the training set spends time are kept by the
    whole run. *)
Theorem C45_ctmc_fixed_rates_kept : forall (m m' : ctmc R) (fixed : list (list bool)) (p max_it c s : nat) set (eps : R) ll stopped,
  wf_ctmc m -> nonneg_mat (ct_mat m) -> timed_set set -> pos_times set -> (s < ct_n m)%nat ->
  0 < set_expected (ct_density m) (ct_expected_dwell m s) set ->
  bw_loop (round_CTMC_timed p fixed set) eps max_it None 0 m = Ok (m', c, ll, stopped) ->
  forall s', (s' < ct_n m)%nat -> is_fixed fixed s s' = true -> rate m' s s' = rate m s s'.
Proof.
  intros m m' fixed p mx c s set eps ll st W N A HT Hs Q E.
  apply (bw_loop_inv _ _ (fun x => (ct_ok x /\ ct_frame m x) /\ 0 < set_expected (ct_density x) (ct_expected_dwell x s) set /\
    forall s', (s' < ct_n m)%nat -> is_fixed fixed s s' = true -> rate x s s' = rate m s s')) in E.
  - apply E.
  - intros x x' l [[O (F1 & F2 & F3 & F4)] [Qx Rx]] Er. destruct (round_ct_ok x fixed set p x' l O A HT Er) as [O' (G1 & G2 & G3 & G4)].
    assert (Hsx : (s < ct_n x)%nat) by (rewrite F1; exact Hs).
    split; [split; [exact O'|repeat split; congruence]|]. destruct O as [Wx Nx]. split.
    + destruct (update_CTMC_spec x fixed set (tW x) (tf x) tc _ (t_work x Wx fixed set) (t_P_nonneg x Wx set Nx) p x' l Er) as (B1 & B2 & B3 & B4 & B5 & G & _).
      rewrite <- (tDEN_path x' set A) by (rewrite G1; exact Hsx). rewrite <- (tDEN_path x set A) in Qx by exact Hsx.
      apply (t_DEN_pos x Wx fixed set Nx HT (timed_dw set A) x' B1 B4 B5 G B2 s Hsx Qx).
    + intros s' Hs' Fx. destruct (C73_ctmc_timed_round_is_ratio_of_expectations x x' fixed p set l Wx Nx A Er) as (_ & _ & _ & _ & _ & _ & _ & K).
      rewrite K; try (rewrite F1; assumption); try assumption. destruct (Req_EM_T _ 0); [lra|]. apply Rx; assumption.
  - split; [split; [split; assumption|repeat split]|]. split; [exact Q|auto].
Qed.
Print Assumptions C45_ctmc_fixed_rates_kept.

(** ... but those of the other states are doubled at every round. *)
Definition ex_fix : ctmc R := mkCTMC [[1; 0]; [1; 0]] ["x"; "y"]%string [1; 0] "ex"%string.
Definition ex_fset : list ((list string * list R) * Z) := [((["x"; "x"]%string, [1]), 1%Z)].
Definition ex_mask : list (list bool) := [[false; false]; [true; false]].
Lemma ex_fix_ok : wf_ctmc ex_fix /\ nonneg_mat (ct_mat ex_fix) /\ timed_set ex_fset /\ pos_times ex_fset /\ (forall tr t, In (tr, t) ex_fset -> 0 < ct_density ex_fix tr).
Proof.
  split; [|split; [|split; [|split]]].
  - unfold wf_ctmc, square, ct_n; cbn. repeat split; auto.
    + intros r [<-|[<-|[]]]; reflexivity.
    + intros v [<-|[<-|[]]]; lra.
  - intros r [<-|[<-|[]]] v [<-|[<-|[]]]; lra.
  - intros tr t [E|[]]; inversion E; subst. split; [reflexivity|]. intros d [<-|[]]; lra.
  - intros st [<-|[]]; cbn; lia.
  - intros tr t [E|[]]; inversion E; subst. unfold ct_density, trace_prob, sumL, jump_density, is_label; cbn. pose proof (exp_pos (- ((1 + (0 + 0)) * 1))). lra.
Qed.
Lemma round_ct_succeeds m fixed set p : ct_ok m -> timed_set set ->
  (exists tr t, In (tr, t) set /\ 0 < ct_density m tr) ->
  ((1 < p)%nat \/ forall tr t, In (tr, t) set -> 0 < ct_density m tr) ->
  exists m' ll, round_CTMC_timed p fixed set m = Ok (m', ll).
Proof.
  intros [W N] A Ex Hp. unfold round_CTMC_timed. apply (update_CTMC_succeeds m fixed set (tW m) (tf m) tc _ (t_work m W fixed set)).
  - destruct Ex as [tr [t [I Q]]]. exists tr, t. rewrite tP_path by apply (A tr t I). auto.
  - destruct Hp as [Hp|Hp]; [left; exact Hp|right]. intros tr t I. rewrite tP_path by apply (A tr t I). eauto.
Qed.
Theorem C45_ctmc_fixed_rates_refuted : exists (m m' : ctmc R) (fixed : list (list bool)) set (ll : R) (s s' : nat),
  wf_ctmc m /\ nonneg_mat (ct_mat m) /\ timed_set set /\ pos_times set /\ (forall tr t, In (tr, t) set -> 0 < ct_density m tr) /\
  (s < ct_n m)%nat /\ (s' < ct_n m)%nat /\ is_fixed fixed s s' = true /\
  bw_loop (round_CTMC_timed 1 fixed set) 1 1 None 0 m = Ok (m', 1%nat, Some ll, false) /\ rate m s s' = 1 /\ rate m' s s' = 2.
Proof.
  destruct ex_fix_ok as (W & N & A & HT & P).
  destruct (round_ct_succeeds ex_fix ex_mask ex_fset 1) as [m' [ll Er]]; auto; [split; assumption| |].
  { exists (["x"; "x"]%string, [1]), 1%Z. split; [left; reflexivity|]. apply (P _ 1%Z). left; reflexivity. }
  exists ex_fix, m', ex_mask, ex_fset, ll, 1%nat, 0%nat.
  split; [exact W|]. split; [exact N|]. split; [exact A|]. split; [exact HT|]. split; [exact P|]. split; [cbn; lia|]. split; [cbn; lia|]. split; [reflexivity|].
  split; [cbn [bw_loop]; rewrite Er; reflexivity|]. split; [reflexivity|].
  destruct (C73_ctmc_timed_round_is_ratio_of_expectations ex_fix m' ex_mask 1 ex_fset ll W N A Er) as (_ & _ & _ & _ & _ & _ & _ & K).
  rewrite (K 1%nat 0%nat) by (cbn; auto; lia).
  replace (set_expected _ _ _) with 0; [destruct (Req_EM_T 0 0); [|congruence]; unfold rate, matR; cbn; lra|].
  symmetry. unfold set_expected, ex_fset. cbn [map sumL fst snd]. unfold sumL, ct_expected_dwell, ct_expected, expected, sumL. cbn.
  destruct (Rlt_dec _ _); unfold Rdiv; ring.
Qed.
Print Assumptions C45_ctmc_fixed_rates_refuted.

(** ** C42 *)
(** Densities are bounded when no dwell time is zero: the density of leaving after
    a time t is at most 1/(e t), whatever the exit rate. *)
Definition density_bound (ts : list R) : R := fold_right (fun t acc => / (exp 1 * t) * acc) 1 ts.
Definition set_bound (set : list ((list string * list R) * Z)) : R :=
  sumL set (fun st => IZR (snd st) * Rmax 0 (ln (density_bound (snd (fst st))))).
Definition pos_dwell (set : list ((list string * list R) * Z)) : Prop :=
  forall tr t, In (tr, t) set -> forall d, In d (snd tr) -> 0 < d.

Lemma rate_time E t : 0 <= E -> 0 < t -> E * exp (- (E * t)) <= / (exp 1 * t).
Proof.
  intros HE Ht. pose proof (exp_ineq1_le (E * t - 1)) as I. pose proof (exp_pos 1) as P1. pose proof (exp_pos (- (E * t))) as P2.
  assert (Q : E * t * exp (- (E * t)) * exp 1 <= 1).
  { replace 1 with (exp (E * t - 1) * exp (- (E * t)) * exp 1) at 2.
    - apply Rmult_le_compat_r; [lra|]. apply Rmult_le_compat_r; lra.
    - rewrite <- !exp_plus. replace (E * t - 1 + - (E * t) + 1) with 0 by ring. apply exp_0. }
  apply (Rmult_le_reg_r (exp 1 * t)); [nra|]. rewrite Rinv_l by nra. lra.
Qed.
Lemma density_bound_pos ts : (forall d, In d ts -> 0 < d) -> 0 < density_bound ts.
Proof.
  induction ts as [|t ts IH]; intros H; cbn; [lra|]. apply Rmult_lt_0_compat; [|apply IH; intros; apply H; right; assumption].
  apply Rinv_0_lt_compat. apply Rmult_lt_0_compat; [apply exp_pos|apply H; left; reflexivity].
Qed.
Lemma Bk_bound m (l : list (string * R)) f s : ct_ok m -> (forall o, In o l -> 0 < snd o) -> (forall i, (i < ct_n m)%nat -> 0 <= f i <= 1) -> (s < ct_n m)%nat ->
  0 <= Bk (ct_n m) (map (fun o s s' => tb m o s * tA m o s s') l) f s <= density_bound (map snd l).
Proof.
  intros [W N] Hd Hf. revert s. induction l as [|[o t] l IH]; intros s Hs; cbn [map Bk density_bound fold_right]; [apply Hf; exact Hs|].
  fold (density_bound (map snd l)). cbn [snd]. set (B := density_bound (map snd l)) in *.
  assert (HB : 0 < B) by (apply density_bound_pos; intros d I; apply in_map_iff in I; destruct I as [o' [<- I]]; apply Hd; right; exact I).
  assert (IH' : forall s, (s < ct_n m)%nat -> 0 <= Bk (ct_n m) (map (fun o s s' => tb m o s * tA m o s s') l) f s <= B) by (apply IH; intros; apply Hd; right; assumption).
  assert (Hb : 0 <= tb m (o, t) s <= exp (- (exit_rate m s * t))).
  { unfold tb. cbn [fst snd]. pose proof (exp_pos (- (exit_rate m s * t))). destruct (is_label_01 (ct_lab m) o s) as [-> | ->]; lra. }
  assert (Hx : 0 <= exit_rate m s).
  { unfold exit_rate. rewrite (row_sum_Sum (ct_mat m) (ct_n m) s (proj1 W) Hs). apply Sum_nonneg. intros; apply mget_nonneg; exact N. }
  assert (A0 : forall s', 0 <= tA m (o, t) s s') by (intros s'; apply (mget_nonneg _ s s' N)).
  split.
  - apply Sum_nonneg. intros s' Hs'. apply Rmult_le_pos; [apply Rmult_le_pos; [apply Hb|apply A0]|apply IH'; exact Hs'].
  - apply Rle_trans with (Sum (ct_n m) (fun s' => mget (ct_mat m) s s' * (exp (- (exit_rate m s * t)) * B))).
    + apply Sum_le. intros s' Hs'. change (tA m (o, t) s s') with (mget (ct_mat m) s s'). rewrite (Rmult_comm (tb m (o, t) s)), Rmult_assoc.
      apply Rmult_le_compat_l; [apply (mget_nonneg _ s s' N)|]. apply Rmult_le_compat; try apply Hb; apply IH'; exact Hs'.
    + rewrite Sum_scal_r, <- (row_sum_Sum (ct_mat m) (ct_n m) s (proj1 W) Hs). fold (exit_rate m s).
      rewrite <- Rmult_assoc. apply Rmult_le_compat_r; [lra|]. apply rate_time; [exact Hx|]. apply (Hd (o, t)). left; reflexivity.
Qed.
Lemma density_le m tr : ct_ok m -> rsum (ct_ini m) <= 1 -> length (fst tr) = S (length (snd tr)) -> (forall d, In d (snd tr) -> 0 < d) ->
  ct_density m tr <= density_bound (snd tr).
Proof.
  intros Ok1 Hi L Hd. destruct Ok1 as [W N]. rewrite <- tP_path by exact L. unfold Pof, tot.
  assert (Hd' : forall o, In o (ots tr) -> 0 < snd o).
  { intros o I. apply Hd. rewrite <- (tc_eq tr L). apply in_map. exact I. }
  assert (Bb : forall s, (s < ct_n m)%nat -> 0 <= Bk (ct_n m) (tW m tr) (tf m tr) s <= density_bound (snd tr)).
  { intros s Hs. rewrite <- (tc_eq tr L). unfold tc, tW, ew. apply Bk_bound; auto; [split; assumption|].
    intros i _. unfold tf. destruct (is_label_01 (ct_lab m) (last (fst tr) EmptyString) i) as [-> | ->]; lra. }
  pose proof (density_bound_pos (snd tr) Hd) as Bp.
  apply Rle_trans with (Sum (ct_n m) (fun s => vget (ct_ini m) s * density_bound (snd tr))).
  - apply Sum_le. intros s Hs. apply Rmult_le_compat_l; [apply vget_nonneg; apply W|]. apply Bb; exact Hs.
  - rewrite Sum_scal_r. replace (Sum (ct_n m) (vget (ct_ini m))) with (rsum (ct_ini m)).
    + rewrite <- (Rmult_1_l (density_bound (snd tr))) at 2. apply Rmult_le_compat_r; lra.
    + rewrite rsum_nth. rewrite (ct_ini_len m W). reflexivity.
Qed.
Lemma set_ll_bound m set : ct_ok m -> rsum (ct_ini m) <= 1 -> timed_set set -> pos_dwell set -> pos_times set -> set_ll (ct_density m) set <= set_bound set.
Proof.
  intros O Hi A D HT. unfold set_ll, set_bound. apply sumL_le. intros [tr t] I. cbn [fst snd].
  specialize (HT (tr, t) I). cbn [snd] in HT. assert (0 < IZR t) by (apply IZR_lt; exact HT || lia).
  destruct (Rlt_dec 0 (ct_density m tr)) as [P|P].
  - apply Rmult_le_compat_l; [lra|].
    apply Rle_trans with (ln (density_bound (snd tr))); [|apply Rmax_r].
    destruct (density_le m tr O Hi (proj1 (A tr t I)) (D tr t I)) as [L|L]; [left; apply ln_increasing; assumption|rewrite L; lra].
  - apply Rmult_le_pos; [lra|apply Rmax_l].
Qed.
Theorem C42_ctmc_timed_terminates : forall (m : ctmc R) (fixed : list (list bool)) (p : nat) set (eps : R) (N : nat),
  wf_ctmc m -> nonneg_mat (ct_mat m) -> rsum (ct_ini m) <= 1 -> timed_set set -> pos_dwell set -> pos_times set -> 0 < eps ->
  (exists tr t, In (tr, t) set /\ 0 < ct_density m tr) ->
  ((1 < p)%nat \/ forall tr t, In (tr, t) set -> 0 < ct_density m tr) ->
  set_bound set - set_ll (ct_density m) set < INR N * eps ->
  exists m' c ll, (c <= S N)%nat /\
    forall max_it, (S N <= max_it)%nat -> bw_loop (round_CTMC_timed p fixed set) eps max_it None 0 m = Ok (m', c, Some ll, true).
Proof.
  intros m fixed p set eps N W Nn Hi A D HT He Ex Hp HN.
  destruct (bw_terminates_ub (round_CTMC_timed p fixed set) eps
     (fun x => (ct_ok x /\ ct_frame m x) /\ (exists tr t, In (tr, t) set /\ 0 < ct_density x tr) /\
               ((1 < p)%nat \/ forall tr t, In (tr, t) set -> 0 < ct_density x tr))
     (fun x => set_ll (ct_density x) set) (set_bound set) He) with (N := N) (m := m) as [m' [c [ll [E Hc]]]].
  - intros x [[O (F1 & F2 & F3 & F4)] [Ex' Hp']]. split.
    + apply set_ll_bound; auto. rewrite F3. exact Hi.
    + destruct (round_ct_succeeds x fixed set p O A Ex' Hp') as [x' [l Er]].
      destruct (C41_ctmc_timed_round_likelihood x x' fixed p set l (proj1 O) (proj2 O) A HT Er) as [-> [_ Ps]]. exists x'. split; [exact Er|].
      destruct (round_ct_ok x fixed set p x' _ O A HT Er) as [O' (G1 & G2 & G3 & G4)].
      split; [split; [exact O'|repeat split; congruence]|]. split.
      * destruct Ex' as [tr [t [I P]]]. exists tr, t. split; [exact I|]. apply (Ps tr t I). exact P.
      * destruct Hp' as [L|L]; [left; exact L|right]. intros tr t I. apply (Ps tr t I). exact (L tr t I).
  - split; [split; [split; assumption|repeat split]|]. split; assumption.
  - exact HN.
  - exists m', c, ll. split; [exact Hc|]. intros mx Hmx. replace mx with (S N + (mx - S N))%nat by lia. apply bw_loop_more. exact E.
Qed.
Print Assumptions C42_ctmc_timed_terminates.

(** A chain, a mask fixing the rate of a visited state, and a trace meeting all the
    hypotheses above. *)
Example C41_C42_C45_instance : wf_ctmc ex_fix /\ nonneg_mat (ct_mat ex_fix) /\ rsum (ct_ini ex_fix) <= 1 /\ timed_set ex_fset /\ pos_dwell ex_fset /\ pos_times ex_fset /\
  (forall tr t, In (tr, t) ex_fset -> 0 < ct_density ex_fix tr) /\ 0 < set_expected (ct_density ex_fix) (ct_expected_dwell ex_fix 0) ex_fset /\
  exists m' ll, round_CTMC_timed 1 [[true; false]] ex_fset ex_fix = Ok (m', ll).
Proof.
  destruct ex_fix_ok as (W & N & A & HT & P). repeat (split; [assumption|]).
  split; [cbn; lra|]. split; [exact A|]. split; [intros tr t [E|[]]; inversion E; subst; intros d [<-|[]]; lra|]. split; [exact HT|]. split; [exact P|]. split.
  - assert (X : 0 < exp (- ((1 + (0 + 0)) * 1))) by apply exp_pos.
    unfold set_expected, ex_fset, sumL, ct_expected_dwell, ct_expected, expected, ct_density, trace_prob, sumL, jump_density, is_label. cbn.
    destruct (Rlt_dec _ _) as [H|H]; [|exfalso; apply H; lra].
    match goal with |- 0 < ?e => replace e with 1; [lra|] end. field. lra.
  - apply round_ct_succeeds; [split; assumption|exact A| |right; exact P].
    exists (["x"; "x"]%string, [1]), 1%Z. split; [left; reflexivity|]. apply (P _ 1%Z). left; reflexivity.
Qed.
