(** Theorems about learning hidden Markov models with Gaussian outputs: C33, C37, C71, C73, C75. *)
From Coq Require Import String ZArith Bool Reals List Lia Lra Psatz.
From Verif Require Import Num Py SNum SPath LSum MSet SSet LSet MModels MLik MBW LFB LEM SBW LBW LBWSet LBWMC SLik LPath LLik LLik2 LBWLoop LBWPath SExp LEMGen LBWGO PLik LFit.
Import ListNotations.
Local Open Scope R_scope.

Notation go1 := (fun (_ : list (list R)) (_ : nat) => 1).
Notation gP m := (Pof (go_n m) (vget (go_ini m)) (gW m) go1).
(** All observations have d components. *)
Definition obs_dim (d : nat) (set : list (list (list R) * Z)) : Prop := forall tr t, In (tr, t) set -> forall o, In o tr -> length o = d.

Lemma gP_path (m : gohmm R) tr : gP m tr = go_trace_density_move m tr.
Proof. unfold Pof, go_trace_density_move. rewrite trace_prob_move_tot. reflexivity. Qed.
Lemma gW_wts m (tr : list (list R)) : gW m tr = wts (repeat (matR (go_mat m)) (length tr)) (map (go_density m) tr).
Proof. rewrite wts_map. reflexivity. Qed.

(** ** C33 *)
Theorem C33_gohmm_forward_backward : forall (d : nat) (m : gohmm R) (tr : list (list R)) (k : nat),
  wf_gohmm d m -> pos_sigma d m -> (forall o, In o tr -> length o = d) -> (k <= length tr)%nat ->
  let ws := map (fun o ss s => go_tau m ss s o) tr in
  Sum (go_n m) (fun s => vecR (nth k (bw_alphas (go_n m) (go_ini m) ws) []) s
                       * vecR (nth k (bw_betas (go_n m) (vones (go_n m)) ws) []) s)
  = go_trace_density_move m tr.
Proof.
  intros d m tr k W Sg Hd Hk ws. unfold ws. rewrite (bw_alphas_ext _ _ _ (go_ws_agree m d Sg tr Hd)), (bw_betas_ext _ _ _ (go_ws_agree m d Sg tr Hd)).
  change vecR with (@vget R RNum).
  rewrite fb_position; [|apply W|apply vones_length|unfold gW; rewrite ew_length; exact Hk].
  rewrite <- gP_path. apply tot_ext_f. intros; apply vget_vones; assumption.
Qed.
Print Assumptions C33_gohmm_forward_backward.

(** ** C73 *)
Lemma gGA_path (m : gohmm R) set s (g : list R -> R) : (s < go_n m)%nat ->
  GA (go_n m) set (vget (go_ini m)) (gW m) go1 (fun tr => map g tr) s =
  set_expected (go_trace_density_move m) (go_expected m (fun o => on_leave s (g o))) set.
Proof.
  intros Hs. rewrite (GA_expected _ _ _ _ _ (fun tr => repeat (matR (go_mat m)) (length tr)) (fun tr => map (go_density m) tr)); auto.
  - apply set_expected_ext; intros tr t I; [reflexivity|]. intros _. unfold go_expected. rewrite map_map. reflexivity.
  - intros tr t _. apply gW_wts.
  - intros tr t _. rewrite repeat_length, map_length. reflexivity.
  - intros tr t _. rewrite !map_length. reflexivity.
Qed.
Lemma gDEN_path (m : gohmm R) set s : (s < go_n m)%nat -> gDEN m set s = set_expected (go_trace_density_move m) (go_expected_visits m s) set.
Proof.
  intros Hs. unfold gDEN, go_expected_visits. rewrite <- (gGA_path m set s (fun _ => 1)) by exact Hs. apply psum_ext. intros tr t _ _. f_equal. f_equal. unfold ones1, gW. rewrite ew_length.
  induction tr; cbn; [reflexivity|]. f_equal. assumption.
Qed.
Lemma gSUM_path (m : gohmm R) set s k h : (s < go_n m)%nat ->
  gSUM m set s k h = set_expected (go_trace_density_move m) (go_expected_sum m s k h) set.
Proof. intros Hs. unfold gSUM, go_expected_sum. apply (gGA_path m set s (fun o => h (nth k o 0))). exact Hs. Qed.
Lemma gNUM_path (m : gohmm R) set s s' : (s < go_n m)%nat -> (s' < go_n m)%nat ->
  gNUM m set s s' = set_expected (go_trace_density_move m) (go_expected_moves m s s') set.
Proof.
  intros Hs Hs'. unfold gNUM. rewrite (XI_expected _ _ _ _ _ (fun tr => repeat (matR (go_mat m)) (length tr)) (fun tr => map (go_density m) tr)); auto.
  - apply set_expected_ext; intros tr t I; [reflexivity|]. intros _. unfold go_expected_moves, go_expected, ones1. f_equal. unfold gW. rewrite ew_length. apply map_const.
  - intros tr t _. apply gW_wts.
  - intros tr t _. rewrite repeat_length, map_length. reflexivity.
  - intros tr t _. unfold ones1, gW. rewrite repeat_length, ew_length, map_length. reflexivity.
Qed.
Lemma gIN_path (m : gohmm R) set s : (s < go_n m)%nat ->
  gIN m set s = set_expected (go_trace_density_move m) (go_expected_starts m s) set.
Proof.
  intros Hs. unfold gIN, IN, psum, set_expected. apply sumL_ext. intros [tr t] I. cbn [fst snd]. rewrite gP_path.
  destruct (Rlt_dec _ _); [|reflexivity]. unfold fac. rewrite gP_path. unfold go_expected_starts.
  rewrite starts_Bk by (rewrite ?repeat_length, ?map_length; auto). rewrite gW_wts. change (@vget R RNum (go_ini m) s) with (vecR (go_ini m) s). unfold Rdiv. ring.
Qed.

(** A round replaces transition and initial probabilities and means by ratios of
    expected sums; the new standard deviation is the square root of the expected
    squared distance to the OLD mean.  A state with no expected visit keeps its
    transitions and means, and its standard deviation is replaced by its square
    root. *)
Theorem C73_gohmm_round_is_ratio_of_expectations : forall (d : nat) (m m' : gohmm R) (p : nat) set (ll : R),
  wf_gohmm d m -> pos_sigma d m -> nonneg_mat (go_mat m) -> obs_dim d set -> round_GoHMM p d set m = Ok (m', ll) ->
  let E X := set_expected (go_trace_density_move m) X set in
  go_name m' = go_name m /\ square (go_n m) (go_mat m') /\ ll = set_ll (go_trace_density_move m) set /\
  (forall s s', (s < go_n m)%nat -> (s' < go_n m)%nat ->
    matR (go_mat m') s s' = if Req_EM_T (E (go_expected_visits m s)) 0 then matR (go_mat m) s s'
                            else E (go_expected_moves m s s') / E (go_expected_visits m s)) /\
  (forall s k, (s < go_n m)%nat -> (k < d)%nat ->
    mean m' s k = if Req_EM_T (E (go_expected_visits m s)) 0 then mean m s k
                  else E (go_expected_sum m s k (fun x => x)) / E (go_expected_visits m s)) /\
  (forall s k, (s < go_n m)%nat -> (k < d)%nat ->
    stddev m' s k = sqrt (if Req_EM_T (E (go_expected_visits m s)) 0 then stddev m s k
                          else E (go_expected_sum m s k (fun x => (x - mean m s k) * (x - mean m s k))) / E (go_expected_visits m s))) /\
  (forall s, (s < go_n m)%nat ->
    vecR (go_ini m') s = E (go_expected_starts m s) / Sum (go_n m) (fun i => E (go_expected_starts m i))).
Proof.
  intros d m m' p set ll W Sg N Hd Er E.
  destruct (round_GoHMM_spec m d W Sg set Hd N p m' ll Er) as (B & C & D & _ & _ & _ & G & H1 & H2 & I & L & _).
  split; [exact B|]. split; [exact D|]. split.
  { rewrite L. apply set_ll_ext. intros; apply gP_path. }
  split; [|split; [|split]].
  - intros s s' Hs Hs'. change matR with (@mget R RNum). rewrite G by assumption. unfold est. rewrite gDEN_path, gNUM_path by assumption. reflexivity.
  - intros s k Hs Hk. rewrite H1 by assumption. rewrite gDEN_path, gSUM_path by assumption. reflexivity.
  - intros s k Hs Hk. rewrite H2 by assumption. rewrite gDEN_path, gSUM_path by assumption. reflexivity.
  - intros s Hs. change vecR with (@vget R RNum). rewrite I by assumption. rewrite gIN_path by exact Hs. f_equal. apply Sum_ext. intros i Hi. apply gIN_path. exact Hi.
Qed.
Print Assumptions C73_gohmm_round_is_ratio_of_expectations.

(** ** C71: one round *)
Definition go_sub (m : gohmm R) : Prop := substochastic (go_mat m) /\ rsum (go_ini m) <= 1.
Theorem C71_gohmm_round_likelihood : forall (d : nat) (m m' : gohmm R) (p : nat) set (ll : R),
  wf_gohmm d m -> pos_sigma d m -> go_sub m -> obs_dim d set -> pos_times set -> round_GoHMM p d set m = Ok (m', ll) -> pos_sigma d m' ->
  ll = set_ll (go_trace_density_move m) set /\
  set_ll (go_trace_density_move m) set <= set_ll (go_trace_density_move m') set /\
  (forall tr t, In (tr, t) set -> (0 < go_trace_density_move m tr <-> 0 < go_trace_density_move m' tr)).
Proof.
  intros d m m' p set ll W Sg [[N S1] Si] Hd HT E Sg'.
  destruct (round_GoHMM_spec m d W Sg set Hd N p m' ll E) as (B & C & D & _ & _ & Li & G & H1 & H2 & I & L & X).
  destruct (g_em_mono m d W Sg set Hd N HT m' X C Li G H1 H2 I Sg' S1 Si) as [M1 M2].
  assert (P' : forall tr, Pof (go_n m) (vget (go_ini m')) (gW m') go1 tr = go_trace_density_move m' tr).
  { intros tr. rewrite <- gP_path. rewrite C. reflexivity. }
  rewrite (set_ll_ext _ _ set (fun tr t _ => gP_path m tr)) in L, M1.
  rewrite (set_ll_ext _ _ set (fun tr t _ => P' tr)) in M1.
  split; [exact L|]. split; [exact M1|]. intros tr t It. rewrite <- gP_path, <- P'. exact (M2 tr t It).
Qed.
Print Assumptions C71_gohmm_round_likelihood.

(** ** C75 *)
Definition go_ok (d : nat) (m : gohmm R) : Prop := wf_gohmm d m /\ nonneg_mat (go_mat m).
Lemma round_go_ok d m set p m' ll : go_ok d m -> pos_sigma d m -> obs_dim d set -> round_GoHMM p d set m = Ok (m', ll) -> pos_times set ->
  go_ok d m' /\ go_n m' = go_n m /\ go_name m' = go_name m /\ rsum (go_ini m') = 1.
Proof.
  intros [W N] Sg Hd E HT. destruct (round_GoHMM_spec m d W Sg set Hd N p m' ll E) as (B & C & D & Lo & Ro & Li & G & H1 & H2 & I & L & X).
  split; [split|].
  - unfold wf_gohmm. rewrite C. split; [exact D|]. split; [exact Lo|]. split; [exact Ro|]. split; [exact Li|]. apply (g_ini_nonneg' m d W Sg set Hd N HT m' X Li I).
  - apply (g_nonneg' m d W Sg set Hd N HT m' D G).
  - split; [exact C|]. split; [exact B|]. apply (g_ini_sum' m set HT m' X Li I).
Qed.
Lemma grow_rule d m set p m' ll (Q : R -> Prop) : go_ok d m -> pos_sigma d m -> obs_dim d set -> round_GoHMM p d set m = Ok (m', ll) -> Q 1 ->
  (forall r, In r (go_mat m) -> Q (rsum r)) -> (forall r, In r (go_mat m') -> Q (rsum r)).
Proof.
  intros [W N] Sg Hd E Q1 H0. destruct (round_GoHMM_spec m d W Sg set Hd N p m' ll E) as (B & C & D & Lo & Ro & Li & G & H1 & H2 & I & L & X).
  intros r Ir; apply (In_nth _ _ []) in Ir; destruct Ir as [s [Hs <-]].
  rewrite (proj1 D) in Hs. rewrite (g_row_sum' m d W set m' D G s Hs). destruct (Req_EM_T _ 0); [|exact Q1]. apply H0, (nth_mget_in _ (go_n m)); [apply W|exact Hs].
Qed.

(** One round from a model with positive standard deviations keeps transition rows
    and the initial distribution stochastic. *)
Theorem C75_gohmm_round_stochastic : forall (d : nat) (m m' : gohmm R) (p : nat) set (ll : R),
  wf_gohmm d m -> pos_sigma d m -> stochastic (go_mat m) -> obs_dim d set -> pos_times set -> round_GoHMM p d set m = Ok (m', ll) ->
  wf_gohmm d m' /\ stochastic (go_mat m') /\ rsum (go_ini m') = 1 /\ go_n m' = go_n m /\ go_name m' = go_name m /\
  (forall s k, (s < go_n m)%nat -> (k < d)%nat -> 0 <= stddev m' s k).
Proof.
  intros d m m' p set ll W Sg [N S1] Hd HT E. assert (O1 : go_ok d m) by (split; assumption).
  destruct (round_go_ok d m set p m' ll O1 Sg Hd E HT) as [[W' N'] [C [B I]]].
  split; [exact W'|]. split; [split; [exact N'|]|].
  - apply (grow_rule d m set p m' ll (fun v => v = 1) O1 Sg Hd E eq_refl S1).
  - split; [exact I|]. split; [exact C|]. split; [exact B|]. intros s k Hs Hk.
    destruct (C73_gohmm_round_is_ratio_of_expectations d m m' p set ll W Sg N Hd E) as (_ & _ & _ & _ & _ & Sd & _).
    rewrite Sd by assumption. apply sqrt_pos.
Qed.
Print Assumptions C75_gohmm_round_stochastic.

(** A state with no expected visit keeps its transitions and its means; its standard
    deviations are replaced by their square roots. *)
Theorem C75_gohmm_unvisited_round : forall (d : nat) (m m' : gohmm R) (p s : nat) set (ll : R),
  wf_gohmm d m -> pos_sigma d m -> nonneg_mat (go_mat m) -> obs_dim d set -> round_GoHMM p d set m = Ok (m', ll) -> (s < go_n m)%nat ->
  (forall tr t, In (tr, t) set -> go_expected_visits m s tr = 0) ->
  (forall s', (s' < go_n m)%nat -> matR (go_mat m') s s' = matR (go_mat m) s s') /\
  (forall k, (k < d)%nat -> mean m' s k = mean m s k /\ stddev m' s k = sqrt (stddev m s k)).
Proof.
  intros d m m' p s set ll W Sg N Hd Er Hs Hv. destruct (C73_gohmm_round_is_ratio_of_expectations d m m' p set ll W Sg N Hd Er) as (_ & _ & _ & G & H1 & H2 & _).
  assert (Z : set_expected (go_trace_density_move m) (go_expected_visits m s) set = 0).
  { unfold set_expected. apply sumL_zero_ext. intros [tr t] I. cbn [fst snd]. rewrite (Hv tr t I). destruct (Rlt_dec _ _); [|reflexivity]. unfold Rdiv. ring. }
  split; [|split]; intros; [rewrite G by assumption|rewrite H1 by assumption|rewrite H2 by assumption]; rewrite Z; destruct (Req_EM_T 0 0); congruence.
Qed.
Print Assumptions C75_gohmm_unvisited_round.

(** Models whose every transition and initial probability is positive. *)
Definition go_full (d : nat) (m : gohmm R) : Prop :=
  (0 < go_n m)%nat /\ pos_sigma d m /\
  (forall s s', (s < go_n m)%nat -> (s' < go_n m)%nat -> 0 < matR (go_mat m) s s') /\
  (forall s, (s < go_n m)%nat -> 0 < vecR (go_ini m) s).
(** Some trace is not empty and every component takes at least two values. *)
Definition observed (set : list (list (list R) * Z)) (o : list R) : Prop := exists tr t, In (tr, t) set /\ In o tr.
Definition varied (d : nat) (set : list (list (list R) * Z)) : Prop :=
  (exists o, observed set o) /\
  forall k, (k < d)%nat -> exists o o', observed set o /\ observed set o' /\ nth k o 0 <> nth k o' 0.

Section Full.
  Variable n : nat.
  Hypothesis Hn : (0 < n)%nat.
  Definition fullw (w : nat -> nat -> R) := forall i j, (i < n)%nat -> (j < n)%nat -> 0 < w i j.
  Definition fullv (f : nat -> R) := forall i, (i < n)%nat -> 0 < f i.
  Lemma Sum_all_pos (g : nat -> R) : fullv g -> 0 < Sum n g.
  Proof. intros H. apply (Sum_pos n g 0); auto. intros j Hj. apply Rlt_le, H, Hj. Qed.
  Lemma Bk_pos W f : Forall fullw W -> fullv f -> fullv (Bk n W f).
  Proof.
    intros H F. induction H as [|w W Hw HW IH]; [exact F|]. intros s Hs. cbn [Bk]. apply Sum_all_pos. intros i Hi. apply Rmult_lt_0_compat; auto.
  Qed.
  Lemma step_pos a w : fullv a -> fullw w -> fullv (step n a w).
  Proof. intros Ha Hw s Hs. apply Sum_all_pos. intros i Hi. apply Rmult_lt_0_compat; auto. Qed.
  Lemma xi_pos a W f s s' : fullv a -> Forall fullw W -> fullv f -> (s < n)%nat -> (s' < n)%nat -> Forall (fun x => 0 < x) (xi n a W f s s').
  Proof.
    intros Ha HW Hf Hs Hs'. revert a Ha. induction HW as [|w W Hw HW IH]; intros a Ha; cbn [xi]; constructor.
    - apply Rmult_lt_0_compat; [apply Rmult_lt_0_compat; auto|]. apply Bk_pos; assumption.
    - apply IH. apply step_pos; assumption.
  Qed.
  Lemma gam_pos a W f s : fullv a -> Forall fullw W -> fullv f -> (s < n)%nat -> Forall (fun x => 0 < x) (gam n a W f s).
  Proof.
    intros Ha HW Hf Hs. revert a Ha. induction HW as [|w W Hw HW IH]; intros a Ha; [constructor|]. cbn [gam]. constructor.
    - apply Rmult_lt_0_compat; [auto|]. apply Bk_pos; auto.
    - apply IH. apply step_pos; assumption.
  Qed.
  Lemma tot_pos a W f : fullv a -> Forall fullw W -> fullv f -> 0 < tot n a W f.
  Proof. intros Ha HW Hf. apply Sum_all_pos. intros i Hi. apply Rmult_lt_0_compat; [auto|]. apply Bk_pos; assumption. Qed.
End Full.
Lemma Forall_pos_nth l k : Forall (fun x => 0 < x) l -> (k < length l)%nat -> 0 < nth k l 0.
Proof. intros H Hk. rewrite Forall_forall in H. apply H, nth_In, Hk. Qed.

Section FullModel.
  Variables (d : nat) (m : gohmm R) (set : list (list (list R) * Z)).
  Hypothesis (W : wf_gohmm d m) (F : go_full d m) (Hd : obs_dim d set) (HT : pos_times set).
  Lemma full_W tr : (forall o, In o tr -> length o = d) -> Forall (fullw (go_n m)) (gW m tr).
  Proof.
    intros H. rewrite gW_wts, wts_map. apply Forall_forall. intros w Iw. unfold ew in Iw. apply in_map_iff in Iw. destruct Iw as [o [<- Io]].
    intros i j Hi Hj. destruct F as (Hn & Sg & FM & FI). apply Rmult_lt_0_compat; [|apply FM; assumption].
    apply (go_density_pos d); auto.
  Qed.
  Lemma full_P tr : (forall o, In o tr -> length o = d) -> 0 < gP m tr.
  Proof. intros H. destruct F as (Hn & Sg & FM & FI). apply tot_pos; auto; [apply full_W; exact H|intros i _; lra]. Qed.
  Lemma full_NUM s s' : (exists o, observed set o) -> (s < go_n m)%nat -> (s' < go_n m)%nat -> 0 < gNUM m set s s'.
  Proof.
    intros [o [tr [t [It Io]]]] Hs Hs'. pose proof F as (Hn & Sg & FM & FI).
    assert (X : forall x u, In (x, u) set -> Forall (fun y => 0 < y) (xi (go_n m) (vget (go_ini m)) (gW m x) (fun _ => 1) s s')).
    { intros x u I. apply xi_pos; auto; [apply full_W; exact (Hd x u I)|intros i _; lra]. }
    assert (Nn : forall x u, In (x, u) set -> 0 <= wsum (xi (go_n m) (vget (go_ini m)) (gW m x) (fun _ => 1) s s') (ones1 (gW m) x)).
    { intros x u I. apply wsum_nonneg; [|intros z Iz; apply repeat_spec in Iz; lra]. intros z Iz. pose proof (X x u I) as Y. rewrite Forall_forall in Y. apply Rlt_le, Y, Iz. }
    unfold gNUM, XI. apply (psum_pos_term _ _ _ _ _ _ tr t); auto.
    - intros x u I P. apply Rmult_le_pos; [eauto|]. apply Rlt_le, (fac_pos _ set _ _ _ HT); auto.
    - apply full_P. exact (Hd tr t It).
    - apply Rmult_lt_0_compat; [|apply (fac_pos _ set _ _ _ HT); auto; apply full_P; exact (Hd tr t It)].
      apply (wsum_pos _ _ 0).
      + intros z Iz. pose proof (X tr t It) as Y. rewrite Forall_forall in Y. apply Rlt_le, Y, Iz.
      + intros z Iz. apply repeat_spec in Iz. lra.
      + apply Forall_pos_nth; [exact (X tr t It)|]. rewrite xi_length. unfold gW. rewrite ew_length. destruct tr; [destruct Io|cbn; lia].
      + unfold ones1, gW. rewrite ew_length. destruct tr; [destruct Io|cbn; lra].
  Qed.
  Lemma full_DEN s : (exists o, observed set o) -> (s < go_n m)%nat -> 0 < gDEN m set s.
  Proof. intros X Hs. rewrite gDEN_sum by exact Hs. apply Sum_all_pos; [apply F|]. intros i Hi. apply full_NUM; assumption. Qed.
  Lemma full_SUM s k h : (forall x, 0 <= h x) -> (exists o, observed set o /\ 0 < h (nth k o 0)) -> (s < go_n m)%nat -> 0 < gSUM m set s k h.
  Proof.
    intros Hh [o [[tr [t [It Io]]] Ho]] Hs. pose proof F as (Hn & Sg & FM & FI).
    assert (X : forall x u, In (x, u) set -> Forall (fun y => 0 < y) (gam (go_n m) (vget (go_ini m)) (gW m x) (fun _ => 1) s)).
    { intros x u I. apply gam_pos; auto; [apply full_W; exact (Hd x u I)|intros i _; lra]. }
    assert (Pc : forall (x : list (list R)) z, In z (map (fun o => h (nth k o 0)) x) -> 0 <= z).
    { intros x z Iz. apply in_map_iff in Iz. destruct Iz as [y [<- _]]. apply Hh. }
    assert (Pg : forall x u, In (x, u) set -> forall z, In z (gam (go_n m) (vget (go_ini m)) (gW m x) (fun _ => 1) s) -> 0 <= z).
    { intros x u I z Iz. pose proof (X x u I) as Y. rewrite Forall_forall in Y. apply Rlt_le, Y, Iz. }
    unfold gSUM, GA. apply (psum_pos_term _ _ _ _ _ _ tr t); auto.
    - intros x u I P. apply Rmult_le_pos; [|apply Rlt_le, (fac_pos _ set _ _ _ HT); auto]. apply wsum_nonneg; [exact (Pg x u I)|apply Pc].
    - apply full_P. exact (Hd tr t It).
    - apply Rmult_lt_0_compat; [|apply (fac_pos _ set _ _ _ HT); auto; apply full_P; exact (Hd tr t It)].
      apply (In_nth _ _ []) in Io. destruct Io as [j [Hj Ej]].
      apply (wsum_pos _ _ j); [exact (Pg tr t It)|apply Pc| |].
      + apply Forall_pos_nth; [exact (X tr t It)|]. rewrite gam_length. unfold gW. rewrite ew_length. exact Hj.
      + rewrite (nth_map_in _ _ _ []) by exact Hj. rewrite Ej. exact Ho.
  Qed.
  Lemma full_IN s : (exists o, observed set o) -> (s < go_n m)%nat -> 0 < gIN m set s.
  Proof.
    intros [o [tr [t [It Io]]]] Hs. pose proof F as (Hn & Sg & FM & FI).
    assert (X : forall x u, In (x, u) set -> 0 < vget (go_ini m) s * Bk (go_n m) (gW m x) (fun _ => 1) s).
    { intros x u I. apply Rmult_lt_0_compat; [apply FI, Hs|]. apply Bk_pos; auto; [apply full_W; exact (Hd x u I)|intros i _; lra]. }
    unfold gIN, IN. apply (psum_pos_term _ _ _ _ _ _ tr t); auto.
    - intros x u I P. apply Rmult_le_pos; [apply Rlt_le, (X x u I)|]. apply Rlt_le, (fac_pos _ set _ _ _ HT); auto.
    - apply full_P. exact (Hd tr t It).
    - apply Rmult_lt_0_compat; [exact (X tr t It)|]. apply (fac_pos _ set _ _ _ HT); auto; apply full_P; exact (Hd tr t It).
  Qed.
End FullModel.

Lemma full_nonneg d m : wf_gohmm d m -> go_full d m -> nonneg_mat (go_mat m).
Proof.
  intros W F r Ir x Ix. apply (In_nth _ _ []) in Ir. destruct Ir as [s [Hs <-]]. apply (In_nth _ _ 0) in Ix. destruct Ix as [s' [Hs' <-]].
  destruct W as [[L1 L2] _]. assert (In (nth s (go_mat m) []) (go_mat m)) by (apply nth_In; exact Hs).
  rewrite (L2 _ H) in Hs'. rewrite L1 in Hs. apply Rlt_le. apply F; assumption.
Qed.
Lemma round_full d m set p m' ll : wf_gohmm d m -> go_full d m -> obs_dim d set -> pos_times set -> varied d set ->
  round_GoHMM p d set m = Ok (m', ll) -> go_full d m'.
Proof.
  intros W F Hd HT [Ho V] E. pose proof (full_nonneg d m W F) as N. pose proof F as (Hn & Sg & FM & FI).
  destruct (round_GoHMM_spec m d W Sg set Hd N p m' ll E) as (B & C & D & Lo & Ro & Li & G & H1 & H2 & I & L & X).
  unfold go_full, pos_sigma. rewrite C. split; [exact Hn|]. split; [|split].
  - intros s k Hs Hk. rewrite H2 by assumption. pose proof (full_DEN d m set F Hd HT s Ho Hs) as Dp.
    destruct (Req_EM_T _ 0); [lra|]. apply sqrt_lt_R0. apply Rdiv_lt_0_compat; [|exact Dp].
    apply (full_SUM d m set F Hd HT); [intros x; apply Rle_0_sqr| |exact Hs].
    destruct (V k Hk) as [o [o' [Oo [Oo' Hne]]]].
    destruct (Req_EM_T (nth k o 0) (mean m s k)) as [Eo|Eo]; [exists o'|exists o]; (split; [assumption|]).
    + assert (nth k o' 0 - mean m s k <> 0) by lra. apply (Rsqr_pos_lt _ H).
    + assert (nth k o 0 - mean m s k <> 0) by lra. apply (Rsqr_pos_lt _ H).
  - intros s s' Hs Hs'. change matR with (@mget R RNum). rewrite G by assumption. unfold est. pose proof (full_DEN d m set F Hd HT s Ho Hs) as Dp.
    destruct (Req_EM_T _ 0); [lra|]. apply Rdiv_lt_0_compat; [|exact Dp]. apply (full_NUM d m set F Hd HT); assumption.
  - intros s Hs. change vecR with (@vget R RNum). rewrite I by assumption. apply Rdiv_lt_0_compat; [apply (full_IN d m set F Hd HT); assumption|].
    apply Sum_all_pos; [exact Hn|]. intros i Hi. apply (full_IN d m set F Hd HT); assumption.
Qed.

(** Any number of rounds: from a model with positive probabilities and standard
    deviations, on data whose components vary, every parameter stays in its domain. *)
Theorem C75_gohmm_learning_stochastic : forall (d : nat) (m m' : gohmm R) (p max_it c : nat) set (eps : R) ll stopped,
  wf_gohmm d m -> stochastic (go_mat m) -> rsum (go_ini m) = 1 -> go_full d m -> obs_dim d set -> pos_times set -> varied d set ->
  bw_loop (round_GoHMM p d set) eps max_it None 0 m = Ok (m', c, ll, stopped) ->
  wf_gohmm d m' /\ stochastic (go_mat m') /\ rsum (go_ini m') = 1 /\ go_full d m' /\ go_n m' = go_n m /\ go_name m' = go_name m.
Proof.
  intros d m m' p mx c set eps ll st W S1 Si F Hd HT V E.
  apply (bw_loop_inv _ _ (fun x => (wf_gohmm d x /\ stochastic (go_mat x) /\ rsum (go_ini x) = 1 /\ go_full d x) /\ go_n x = go_n m /\ go_name x = go_name m)) in E.
  - destruct E as [(W' & S' & Si' & F') [A B]]. auto 8.
  - intros x x' l [(Wx & Sx & Ix & Fx) [A B]] Er. pose proof Fx as (_ & Sg & _).
    destruct (C75_gohmm_round_stochastic d x x' p set l Wx Sg Sx Hd HT Er) as (W' & S' & Si' & A' & B' & _).
    pose proof (round_full d x set p x' l Wx Fx Hd HT V Er). split; [auto|]. split; congruence.
  - auto 8.
Qed.
Print Assumptions C75_gohmm_learning_stochastic.

(** ** C37 *)
Theorem C37_gohmm_zero_stays_zero : forall (d : nat) (m m' : gohmm R) (p : nat) set (ll : R),
  wf_gohmm d m -> pos_sigma d m -> nonneg_mat (go_mat m) -> obs_dim d set -> pos_times set ->
  round_GoHMM p d set m = Ok (m', ll) ->
  (forall s s', (s < go_n m)%nat -> (s' < go_n m)%nat -> matR (go_mat m) s s' = 0 -> matR (go_mat m') s s' = 0) /\
  (forall s, (s < go_n m)%nat -> vecR (go_ini m) s = 0 -> vecR (go_ini m') s = 0).
Proof.
  intros d m m' p set ll W Sg N Hd HT E. destruct (round_GoHMM_spec m d W Sg set Hd N p m' ll E) as (_ & _ & D & Lo & Ro & Li & G & H1 & H2 & I & L & X).
  split.
  - intros s s' Hs Hs' Z. apply (g_zero' m set m' G s s' Hs Hs' Z).
  - intros s Hs Z. change vecR with (@vget R RNum). rewrite I by exact Hs. unfold gIN. rewrite IN_zero; [unfold Rdiv; ring|exact Z].
Qed.
Print Assumptions C37_gohmm_zero_stays_zero.

(** ** C71: whole run, for the loglikelihood the library reports *)
Lemma go_move_trace (m : gohmm R) d tr : wf_gohmm d m -> (forall r, In r (go_mat m) -> rsum r = 1) -> tr <> [] -> go_trace_density_move m tr = go_trace_density m tr.
Proof.
  intros W S1 NE. unfold go_trace_density_move, go_trace_density. apply trace_prob_move_eq; [exact NE|]. apply row_sums; [apply W|exact S1].
Qed.
Lemma go_stoch_sub m : stochastic (go_mat m) -> rsum (go_ini m) = 1 -> go_sub m.
Proof. intros [Na Sa] Si. split; [split; [exact Na|]|lra]. intros r Ir; rewrite (Sa r Ir); lra. Qed.

Theorem C71_gohmm_fit_improves_logLikelihood : forall (d : nat) (m m' : gohmm R) (p max_it c : nat) (s : tset (list (list R))) (eps : R) ll stopped,
  wf_gohmm d m -> stochastic (go_mat m) -> rsum (go_ini m) = 1 -> go_full d m -> usable s ->
  (forall tr o, In tr (seqs s) -> In o tr -> length o = d) -> varied d (weighted s) ->
  bw_loop (round_GoHMM p d (weighted s)) eps max_it None 0 m = Ok (m', c, ll, stopped) ->
  exists v v', go_logLikelihood m s = Ok v /\ go_logLikelihood m' s = Ok v' /\ v <= v'.
Proof.
  intros d m m' p mx c s eps ll st W S1 Si F U Ho V E. pose proof (weighted_pos s U) as HT.
  assert (Hd : obs_dim d (weighted s)) by (intros tr t I o Io; apply in_combine_l in I; eauto).
  destruct (C75_gohmm_learning_stochastic d m m' p mx c (weighted s) eps ll st W S1 Si F Hd HT V E) as [W' [S1' [Si' [F' _]]]].
  assert (M : set_ll (go_trace_density_move m) (weighted s) <= set_ll (go_trace_density_move m') (weighted s)).
  { apply (bw_loop_mono _ _ (fun x => wf_gohmm d x /\ stochastic (go_mat x) /\ rsum (go_ini x) = 1 /\ go_full d x) (fun x => set_ll (go_trace_density_move x) (weighted s))) in E.
    - apply E.
    - intros x x' l (Wx & Sx & Ix & Fx) Er. pose proof Fx as (_ & Sg & _).
      destruct (C75_gohmm_round_stochastic d x x' p (weighted s) l Wx Sg Sx Hd HT Er) as (Wx' & Sx' & Ix' & _).
      pose proof (round_full d x (weighted s) p x' l Wx Fx Hd HT V Er) as Fx'. split; [auto|].
      apply (C71_gohmm_round_likelihood d x x' p (weighted s) l Wx Sg (go_stoch_sub x Sx Ix) Hd HT Er). apply Fx'.
    - auto. }
  exists (avg_ll (go_trace_density m) (weighted s)), (avg_ll (go_trace_density m') (weighted s)).
  split; [apply (C27_gohmm_logLikelihood m d); auto; apply F|]. split; [apply (C27_gohmm_logLikelihood m' d); auto; apply F'|].
  rewrite (set_ll_ext (go_trace_density_move m) (go_trace_density m)) in M by (intros tr t I; apply (go_move_trace m d); [exact W|apply S1|exact (weighted_ne s tr t U I)]).
  rewrite (set_ll_ext (go_trace_density_move m') (go_trace_density m')) in M by (intros tr t I; apply (go_move_trace m' d); [exact W'|apply S1'|exact (weighted_ne s tr t U I)]).
  apply avg_le; assumption.
Qed.
Print Assumptions C71_gohmm_fit_improves_logLikelihood.

Lemma round_go_succeeds d m set p : go_ok d m -> pos_sigma d m -> obs_dim d set ->
  (exists tr t, In (tr, t) set /\ 0 < go_trace_density_move m tr) ->
  ((1 < p)%nat \/ forall tr t, In (tr, t) set -> 0 < go_trace_density_move m tr) ->
  exists m' ll, round_GoHMM p d set m = Ok (m', ll).
Proof.
  intros [W N] Sg Hd Ex Hp. unfold round_GoHMM, update_GoHMM.
  rewrite (unwrap_gen (go_n m) set (vget (go_ini m)) (gW m) go1 _ (gmk m d) (g_work m d W Sg set Hd)).
  - cbn [bind]. destruct (goods (processWork_GoHMM m d) set) eqn:G; [|eauto]. exfalso. revert G.
    apply (goods_ne (go_n m) set (vget (go_ini m)) (gW m) go1 _ (gmk m d) (g_work m d W Sg set Hd)).
    destruct Ex as [tr [t [I Q]]]. exists tr, t. rewrite gP_path. auto.
  - destruct Hp as [Hp|Hp]; [left; exact Hp|right]. intros tr t I. rewrite gP_path. eauto.
Qed.
(** On a full model a run never fails. *)
Lemma full_round_succeeds d m set p : wf_gohmm d m -> go_full d m -> obs_dim d set -> set <> [] -> exists m' ll, round_GoHMM p d set m = Ok (m', ll).
Proof.
  intros W F Hd NE. assert (P : forall tr t, In (tr, t) set -> 0 < go_trace_density_move m tr).
  { intros tr t I. rewrite <- gP_path. apply (full_P d); [exact F|exact (Hd tr t I)]. }
  apply round_go_succeeds; auto; [split; [exact W|exact (full_nonneg d m W F)]|apply F|].
  destruct set as [|[tr t] set']; [congruence|]. exists tr, t. split; [left; reflexivity|]. apply (P tr t). left; reflexivity.
Qed.

(** ** C75, the failures *)
(** An unvisited state does not keep its standard deviation (4 becomes 2). *)
Theorem C75_gohmm_unvisited_sigma_refuted : exists (m m' : gohmm R) set (ll : R),
  wf_gohmm 1 m /\ pos_sigma 1 m /\ stochastic (go_mat m) /\ rsum (go_ini m) = 1 /\ obs_dim 1 set /\ pos_times set /\
  round_GoHMM 1 1 set m = Ok (m', ll) /\
  (forall tr t, In (tr, t) set -> go_expected_visits m 1 tr = 0) /\ stddev m 1 0 = 4 /\ stddev m' 1 0 = 2.
Proof.
  set (m := mkGO [[1; 0]; [0; 1]] [[(0, 1)]; [(0, 4)]] [1; 0] "u"%string : gohmm R).
  assert (W : wf_gohmm 1 m).
  { unfold wf_gohmm, square, go_n; cbn. repeat split; auto; try (intros r [<-|[<-|[]]]; reflexivity). intros v [<-|[<-|[]]]; lra. }
  assert (Sg : pos_sigma 1 m).
  { intros s k Hs Hk. assert (k = 0)%nat by lia. subst k. unfold go_n in Hs; cbn in Hs. destruct s as [|[|s]]; [| |lia]; unfold stddev; cbn; lra. }
  assert (St : stochastic (go_mat m)).
  { split; intros r [<-|[<-|[]]]; [| |cbn; lra|cbn; lra]; intros v [<-|[<-|[]]]; lra. }
  assert (Hd : obs_dim 1 [([[0]], 1%Z)]) by (intros tr t [I|[]] o Io; inversion I; subst; destruct Io as [<-|[]]; reflexivity).
  assert (Dp : forall s, (s < 2)%nat -> 0 < go_density m [0] s) by (intros s Hs; apply (go_density_pos 1); auto).
  assert (P : 0 < go_trace_density_move m [[0]]).
  { unfold go_trace_density_move, trace_prob, sumL. pose proof (Dp 0%nat ltac:(lia)). pose proof (Dp 1%nat ltac:(lia)). cbn in H, H0 |- *. lra. }
  destruct (round_go_succeeds 1 m [([[0]], 1%Z)] 1) as [m' [ll E]]; auto.
  { split; [exact W|apply St]. }
  { exists [[0]], 1%Z. split; [left; reflexivity|exact P]. }
  { right. intros tr t [I|[]]. inversion I; subst. exact P. }
  assert (V : forall tr t, In (tr, t) [([[0]], 1%Z)] -> go_expected_visits m 1 tr = 0).
  { intros tr t [I|[]]. inversion I; subst. unfold go_expected_visits, go_expected, expected, sumL, on_leave. cbn. ring. }
  exists m, m', [([[0]], 1%Z)], ll. repeat (split; [solve [auto]|]).
  split; [cbn; lra|]. split; [exact Hd|]. split; [intros x [<-|[]]; cbn; lia|]. split; [exact E|]. split; [exact V|]. split; [reflexivity|].
  destruct (C75_gohmm_unvisited_round 1 m m' 1 1 _ ll W Sg (proj1 St) Hd E ltac:(cbn; lia) V) as [_ H]. destruct (H 0%nat ltac:(lia)) as [_ ->].
  unfold stddev, m; cbn. replace 4 with (2 * 2) by lra. apply sqrt_square. lra.
Qed.
Print Assumptions C75_gohmm_unvisited_sigma_refuted.

(** Learning a constant from one state: after two rounds the standard deviation is 0. *)
Lemma one_state (m : gohmm R) o h : go_n m = 1%nat -> matR (go_mat m) 0 0 = 1 -> vecR (go_ini m) 0 = 1 -> 0 < go_density m o 0 ->
  let set := [([o], 1%Z)] in
  0 < go_trace_density_move m [o] /\
  set_expected (go_trace_density_move m) (go_expected_sum m 0 0 h) set = h (nth 0 o 0) /\
  set_expected (go_trace_density_move m) (go_expected_visits m 0) set = 1 /\
  set_expected (go_trace_density_move m) (go_expected_moves m 0 0) set = 1 /\
  set_expected (go_trace_density_move m) (go_expected_starts m 0) set = 1.
Proof.
  intros Hn HA HI Hg set.
  assert (E0 : go_trace_density_move m [o] = go_density m o 0).
  { unfold go_trace_density_move, trace_prob, sumL. rewrite Hn. cbn [map app length repeat]. revert HA HI. generalize (matR (go_mat m)) (vecR (go_ini m)) (go_density m o). intros A v g HA HI. cbn. rewrite HA, HI. ring. }
  assert (E1 : forall c, go_expected m (fun o => on_leave 0 (c o)) [o] = go_density m o 0 * c o).
  { intros c. unfold go_expected, expected, sumL, on_leave. rewrite Hn. cbn [map app length repeat]. revert HA HI. generalize (matR (go_mat m)) (vecR (go_ini m)) (go_density m o). intros A v g HA HI. cbn. rewrite HA, HI. ring. }
  assert (E2 : go_expected_moves m 0 0 [o] = go_density m o 0).
  { unfold go_expected_moves, go_expected, expected, sumL, on_move. rewrite Hn. cbn [map app length repeat]. revert HA HI. generalize (matR (go_mat m)) (vecR (go_ini m)) (go_density m o). intros A v g HA HI. cbn. rewrite HA, HI. ring. }
  assert (E3 : go_expected_starts m 0 [o] = go_density m o 0).
  { unfold go_expected_starts, trace_prob, sumL. rewrite Hn. cbn [map app length repeat]. revert HA HI. generalize (matR (go_mat m)) (vecR (go_ini m)) (go_density m o). intros A v g HA HI. cbn. rewrite HA, HI. ring. }
  split; [rewrite E0; exact Hg|].
  assert (G : forall X v, X [o] = go_density m o 0 * v -> set_expected (go_trace_density_move m) X set = v).
  { intros X v EX. unfold set_expected, sumL, set. cbn [map fst snd rsum fold_right]. rewrite E0, EX. destruct (Rlt_dec _ _); [|contradiction]. cbn. field. lra. }
  split; [|split; [|split]]; apply G.
  - apply (E1 (fun o => h (nth 0 o 0))).
  - apply (E1 (fun _ => 1)).
  - rewrite E2. ring.
  - rewrite E3. ring.
Qed.
Theorem C75_gohmm_sigma_collapse_refuted : exists (m m' : gohmm R) set (ll : R) b,
  wf_gohmm 1 m /\ pos_sigma 1 m /\ stochastic (go_mat m) /\ rsum (go_ini m) = 1 /\ obs_dim 1 set /\ pos_times set /\
  bw_loop (round_GoHMM 1 1 set) 0 2 None 0 m = Ok (m', 2%nat, Some ll, b) /\ stddev m' 0 0 = 0.
Proof.
  set (m := mkGO [[1]] [[(0, 1)]] [1] "u"%string : gohmm R). set (ts := [([[1]], 1%Z)] : list (list (list R) * Z)).
  assert (W : wf_gohmm 1 m).
  { unfold wf_gohmm, square, go_n; cbn. repeat split; auto; try (intros r [<-|[]]; reflexivity). intros v [<-|[]]; lra. }
  assert (Sg : pos_sigma 1 m).
  { intros s k Hs Hk. assert (k = 0)%nat by lia. subst k. unfold go_n in Hs; cbn in Hs. destruct s; [|lia]; unfold stddev; cbn; lra. }
  assert (St : stochastic (go_mat m)).
  { split; intros r [<-|[]]; [|cbn; lra]; intros v [<-|[]]; lra. }
  assert (Hd : obs_dim 1 ts) by (intros tr t [I|[]] o Io; inversion I; subst; destruct Io as [<-|[]]; reflexivity).
  assert (HT : pos_times ts) by (intros x [<-|[]]; cbn; lia).
  assert (Step : forall x : gohmm R, wf_gohmm 1 x -> pos_sigma 1 x -> nonneg_mat (go_mat x) -> go_n x = 1%nat -> matR (go_mat x) 0 0 = 1 -> vecR (go_ini x) 0 = 1 ->
    exists x' l, round_GoHMM 1 1 ts x = Ok (x', l) /\ wf_gohmm 1 x' /\ nonneg_mat (go_mat x') /\ go_n x' = 1%nat /\ matR (go_mat x') 0 0 = 1 /\ vecR (go_ini x') 0 = 1 /\
      mean x' 0 0 = 1 /\ stddev x' 0 0 = sqrt ((1 - mean x 0 0) * (1 - mean x 0 0))).
  { intros x Wx Sx Nx Hn HA HI. assert (Dp : 0 < go_density x [1] 0) by (apply (go_density_pos 1); auto; lia).
    pose proof (fun h => one_state x [1] h Hn HA HI Dp) as O. destruct (O (fun x => x)) as (P & O1 & O2 & O3 & O4). fold ts in O1, O2, O3, O4.
    destruct (round_go_succeeds 1 x ts 1) as [x' [l E]]; auto; [split; assumption|exists [[1]], 1%Z; split; [left; reflexivity|exact P]|right; intros tr t [I|[]]; inversion I; subst; exact P|].
    destruct (round_go_ok 1 x ts 1 x' l (conj Wx Nx) Sx Hd E HT) as ((Wx' & Nx') & C & _ & _).
    destruct (C73_gohmm_round_is_ratio_of_expectations 1 x x' 1 ts l Wx Sx Nx Hd E) as (_ & _ & _ & G & H1 & H2 & I).
    exists x', l. split; [exact E|]. split; [exact Wx'|]. split; [exact Nx'|]. split; [congruence|].
    assert (H0 : (0 < go_n x)%nat) by lia.
    split; [|split; [|split]].
    - rewrite G by assumption. rewrite O2, O3. destruct (Req_EM_T 1 0); lra.
    - rewrite I by assumption. rewrite Hn. unfold Sum, sumL; cbn [map seq rsum fold_right]. rewrite O4. cbn. lra.
    - rewrite H1 by (assumption || lia). rewrite O1, O2. destruct (Req_EM_T 1 0); [lra|]. cbn. lra.
    - rewrite H2 by (assumption || lia). destruct (O (fun y => (y - mean x 0 0) * (y - mean x 0 0))) as (_ & O1' & _). fold ts in O1'. rewrite O1', O2.
      destruct (Req_EM_T 1 0); [lra|]. cbn. f_equal. lra. }
  destruct (Step m W Sg (proj1 St) eq_refl eq_refl eq_refl) as (m1 & l1 & E1 & W1 & N1 & n1 & A1 & I1 & M1 & S1).
  assert (Sg1 : pos_sigma 1 m1).
  { intros s k Hs Hk. assert (k = 0 /\ s = 0)%nat as [-> ->] by lia. rewrite S1. apply sqrt_lt_R0. unfold mean, m; cbn. lra. }
  destruct (Step m1 W1 Sg1 N1 n1 A1 I1) as (m2 & l2 & E2 & _ & _ & _ & _ & _ & _ & S2).
  assert (EB : exists b, bw_loop (round_GoHMM 1 1 ts) 0 2 None 0 m = Ok (m2, 2%nat, Some l2, b)).
  { cbn [bw_loop]. rewrite E1. cbn [bind]. rewrite E2. cbn [bind]. destruct (_ <? _)%num; eauto. }
  destruct EB as [b EB]. exists m, m2, ts, l2, b. repeat (split; [solve [auto]|]). split; [cbn; lra|]. split; [exact Hd|]. split; [exact HT|]. split.
  - exact EB.
  - rewrite S2, M1. replace ((1 - 1) * (1 - 1)) with 0 by lra. apply sqrt_0.
Qed.
Print Assumptions C75_gohmm_sigma_collapse_refuted.

(** Example: two states, one component, two traces. *)
Definition ex_go : gohmm R := mkGO [[1/2; 1/2]; [1/3; 2/3]] [[(0, 1)]; [(2, 1)]] [1/2; 1/2] "ex"%string.
Definition ex_gset : tset (list (list R)) := mkset [[[0]; [1]]; [[2]; [0]]] [2; 1]%Z (Some 2%Z).
Example C71_C75_instance : wf_gohmm 1 ex_go /\ stochastic (go_mat ex_go) /\ rsum (go_ini ex_go) = 1 /\ go_full 1 ex_go /\ usable ex_gset /\
  (forall tr o, In tr (seqs ex_gset) -> In o tr -> length o = 1%nat) /\ varied 1 (weighted ex_gset) /\
  exists m' c ll b, bw_loop (round_GoHMM 1 1 (weighted ex_gset)) 0 1 None 0 ex_go = Ok (m', c, ll, b).
Proof.
  assert (W : wf_gohmm 1 ex_go).
  { unfold wf_gohmm, square, go_n; cbn. repeat split; auto; try (intros r [<-|[<-|[]]]; reflexivity). intros v [<-|[<-|[]]]; lra. }
  assert (St : stochastic (go_mat ex_go)).
  { split; intros r [<-|[<-|[]]]; [| |cbn; lra|cbn; lra]; intros v [<-|[<-|[]]]; lra. }
  assert (F : go_full 1 ex_go).
  { unfold go_full, go_n; cbn. split; [lia|]. split; [|split].
    - intros s k Hs Hk. assert (k = 0)%nat by lia. subst k. unfold go_n in Hs; cbn in Hs. destruct s as [|[|s]]; [| |lia]; unfold stddev; cbn; lra.
    - intros [|[|s]] [|[|s']] Hs Hs'; try lia; cbn; lra.
    - intros [|[|s]] Hs; try lia; cbn; lra. }
  assert (Ho : forall tr o, In tr (seqs ex_gset) -> In o tr -> length o = 1%nat).
  { intros tr o [<-|[<-|[]]] [<-|[<-|[]]]; reflexivity. }
  assert (V : varied 1 (weighted ex_gset)).
  { split; [exists [0], [[0]; [1]], 2%Z; split; left; reflexivity|]. intros k Hk. exists [0], [1].
    split; [exists [[0]; [1]], 2%Z; split; left; reflexivity|]. split; [exists [[0]; [1]], 2%Z; split; [left; reflexivity|right; left; reflexivity]|].
    assert (k = 0)%nat by lia. subst k. cbn. lra. }
  repeat (split; [assumption|]). split; [cbn; lra|]. split; [exact F|]. split.
  { split; [reflexivity|]. split; [intros t [<-|[<-|[]]]; lia|]. intros [H|[H|[]]]; discriminate. }
  split; [exact Ho|]. split; [exact V|].
  destruct (full_round_succeeds 1 ex_go (weighted ex_gset) 1) as [m' [ll E]]; auto; [intros tr t I o Io; apply in_combine_l in I; eauto|discriminate|].
  exists m', 1%nat, (Some ll), false. cbn [bw_loop]. rewrite E. reflexivity.
Qed.
