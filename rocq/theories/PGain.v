(** C145 for MCs, HMMs and MDPs: a round improves the likelihood by at least the
    distance it moves the model; it improves it strictly unless it returns the
    model itself; learning stops only where a round moves the model little; the
    moves of a run add up to no more than the improvement. *)
From Coq Require Import String ZArith Bool Reals List Lia Lra Permutation.
From Verif Require Import Num Py SNum SPath LSum MSet SSet LSet MModels MLik MBW LFB LEM SBW LBW LBWSet LBWMC SLik LPath LLik LLik2 LBWLoop LBWPath SExp LEMGen LBWHMM LBWMDP PLik LFit PBWMC PBWHMM PBWMDP SGain LGain.
Import ListNotations.
Local Open Scope R_scope.

Lemma visits_moved_zero v n p q : 0 <= v -> v * moved n p q <= 0 -> v = 0 \/ moved n p q <= 0.
Proof. intros V Z. destruct (Req_dec v 0) as [|Ne]; [left; assumption|right]. pose proof (moved_nonneg n p q). nra. Qed.

(** ** MC *)
Lemma mc_gain m set p m' ll : mc_ok m -> (forall r, In r (mc_mat m) -> rsum r <= 1) -> pos_times set -> round_MC p set m = Ok (m', ll) ->
  set_ll (mc_trace_prob_move m) set + mc_moved set m m' <= set_ll (mc_trace_prob_move m') set.
Proof.
  intros [W N] S1 HT E. destruct (round_MC_spec m W set N (proj2 (proj2 (proj2 W))) p m' ll E) as (A & B & C & D & Sq & G & L & _).
  destruct (mc_em_gain m W set N (proj2 (proj2 (proj2 W))) HT m' A D G S1) as [M1 M2].
  rewrite (set_ll_ext _ _ set (fun tr t _ => mcP_path m tr)) in M1.
  rewrite (set_ll_ext _ _ set (fun tr t _ => ws_lab m m' D B tr)) in M1.
  replace (mc_moved set m m') with (mc_change m set m'); [exact M1|].
  unfold mc_change, mc_moved. apply Sum_ext. intros s Hs. rewrite mcDEN_path by exact Hs. reflexivity.
Qed.
Lemma mc_visits_nonneg m set s : mc_ok m -> pos_times set -> (s < mc_n m)%nat -> 0 <= set_expected (mc_trace_prob_move m) (mc_expected_visits m s) set.
Proof.
  intros [W N] HT Hs. rewrite <- mcDEN_path by exact Hs. rewrite mcDEN_sum by exact Hs. apply Sum_nonneg. intros s' Hs'.
  apply mcNUM_nonneg; auto. apply W.
Qed.
Theorem C145_mc_gain : forall (m m' : mc R) (p : nat) (set : list (list string * Z)) (ll : R),
  wf_mc m -> substochastic (mc_mat m) -> pos_times set -> round_MC p set m = Ok (m', ll) ->
  set_ll (mc_trace_prob_move m) set + mc_moved set m m' <= set_ll (mc_trace_prob_move m') set.
Proof. intros m m' p set ll W [N S1] HT E. apply (mc_gain m set p m' ll); auto. split; assumption. Qed.
Print Assumptions C145_mc_gain.

Theorem C145_mc_strict : forall (m m' : mc R) (p : nat) (set : list (list string * Z)) (ll : R),
  wf_mc m -> substochastic (mc_mat m) -> pos_times set -> round_MC p set m = Ok (m', ll) ->
  m' = m \/ set_ll (mc_trace_prob_move m) set < set_ll (mc_trace_prob_move m') set.
Proof.
  intros m m' p set ll W S HT E. pose proof (C145_mc_gain m m' p set ll W S HT E) as G. destruct S as [N S1].
  assert (O : mc_ok m) by (split; assumption).
  destruct (C73_mc_round_is_ratio_of_expectations m m' p set ll W N E) as (A & B & C & Sq & _ & K).
  destruct (round_mc_ok m set p m' ll O E HT) as [[W' N'] _].
  destruct (Rle_dec (mc_moved set m m') 0) as [Z|P]; [left|right; lra].
  assert (Ma : mc_mat m' = mc_mat m).
  { apply (mat_ext (mc_n m)); [exact Sq|apply W|]. intros s s' Hs Hs'.
    assert (Z' : set_expected (mc_trace_prob_move m) (mc_expected_visits m s) set * moved (mc_n m) (matR (mc_mat m) s) (matR (mc_mat m') s) = 0).
    { apply (Sum_nonneg_zero (mc_n m) (fun s => set_expected (mc_trace_prob_move m) (mc_expected_visits m s) set * moved (mc_n m) (matR (mc_mat m) s) (matR (mc_mat m') s))); auto.
      intros i Hi. apply Rmult_le_pos; [apply mc_visits_nonneg; assumption|apply moved_nonneg]. }
    apply Req_le in Z'. apply visits_moved_zero in Z'; [|apply mc_visits_nonneg; assumption]. destruct Z' as [V0|V0].
    - rewrite K by assumption. cbn zeta. destruct (Req_EM_T _ 0); [reflexivity|contradiction].
    - apply (moved_zero (mc_n m) (matR (mc_mat m) s) (matR (mc_mat m') s)); auto; intros j Hj; apply mget_nonneg; assumption. }
  destruct m, m'. cbn in *. subst. reflexivity.
Qed.
Print Assumptions C145_mc_strict.

Definition mc_sub (m : mc R) : Prop := mc_ok m /\ (forall r, In r (mc_mat m) -> rsum r <= 1).
Lemma mc_round_sub m set p m' ll : mc_sub m -> pos_times set -> round_MC p set m = Ok (m', ll) -> mc_sub m'.
Proof.
  intros [O S1] HT E. split; [apply (round_mc_ok m set p m' ll O E HT)|]. apply (row_rule m set p m' ll (fun v => v <= 1) O E); auto. lra.
Qed.
(** When learning stops by itself, one of its two last rounds moved the model by
    less than epsilon. *)
Theorem C145_mc_stops : forall (m m' : mc R) (p max_it c : nat) (set : list (list string * Z)) (eps : R) ll,
  wf_mc m -> substochastic (mc_mat m) -> pos_times set ->
  bw_loop (round_MC p set) eps max_it None 0 m = Ok (m', c, ll, true) ->
  exists k t m1 m2 l1 l2, rounds (round_MC p set) (mc_moved set) k m m1 t /\
    round_MC p set m1 = Ok (m2, l1) /\ round_MC p set m2 = Ok (m', l2) /\ c = (k + 2)%nat /\ mc_moved set m1 m2 < eps.
Proof.
  intros m m' p mx c set eps ll W [N S1] HT E.
  apply (bw_stops (round_MC p set) eps (mc_moved set) mc_sub (fun x => set_ll (mc_trace_prob_move x) set)) with (fuel := mx) (ll := ll); auto.
  - intros x x' l Sx Ex. split; [apply (mc_round_sub x set p x' l Sx HT Ex)|]. destruct Sx as [Ox Rx].
    split; [apply (round_mc_mono x set p x' l Ox Rx HT Ex)|apply (mc_gain x set p x' l Ox Rx HT Ex)].
  - split; [split; assumption|assumption].
Qed.
Print Assumptions C145_mc_stops.

(** However many rounds, their moves add up to no more than minus the initial
    log-likelihood. *)
Theorem C145_mc_total : forall (m m' : mc R) (p k : nat) (set : list (list string * Z)) (c : R),
  wf_mc m -> substochastic (mc_mat m) -> rsum (mc_ini m) <= 1 -> pos_times set -> rounds (round_MC p set) (mc_moved set) k m m' c ->
  c <= set_ll (mc_trace_prob_move m') set - set_ll (mc_trace_prob_move m) set /\ c <= - set_ll (mc_trace_prob_move m) set.
Proof.
  intros m m' p k set c W [N S1] Si HT H.
  destruct (rounds_gain (round_MC p set) (mc_moved set) (fun x => mc_sub x /\ rsum (mc_ini x) <= 1) (fun x => set_ll (mc_trace_prob_move x) set)) with (2 := H) as [[Sx Ix] G].
  - intros x x' l [Sx Ix] Ex. split; [split; [apply (mc_round_sub x set p x' l Sx HT Ex)|]|destruct Sx; apply (mc_gain x set p x' l); auto].
    destruct Sx as [Ox _]. destruct (round_mc_ok x set p x' l Ox Ex HT) as (_ & _ & _ & -> & _). exact Ix.
  - split; [split; [split; assumption|assumption]|exact Si].
  - split; [exact G|]. enough (set_ll (mc_trace_prob_move m') set <= 0) by lra.
    apply set_ll_nonpos; [|exact HT]. intros tr t _. apply mc_move_le1; [apply Sx|split; apply Sx|exact Ix].
Qed.
Print Assumptions C145_mc_total.

(** ** HMM *)
Lemma hmm_gain m set p m' ll : wf_hmm m -> hmm_sub m -> pos_times set -> round_HMM p set m = Ok (m', ll) ->
  set_ll (hmm_trace_prob_move m) set + hmm_moved set m m' <= set_ll (hmm_trace_prob_move m') set.
Proof.
  intros W [[N1 S1] [[N2 S2] Si]] HT E. assert (N : nonneg_hmm m) by (split; assumption).
  destruct (round_HMM_spec m W set N p m' ll E) as (A & B & C & D & Lo & Ro & Li & G & H & I & L & X).
  destruct (h_em_gain m W set N HT m' X A C D Lo Ro Li G H I S1 S2 Si) as [M1 M2].
  assert (P' : forall tr, Pof (hmm_n m) (vget (hmm_ini m')) (hW m') fo1 tr = hmm_trace_prob_move m' tr).
  { intros tr. rewrite <- hP_path. rewrite C. reflexivity. }
  rewrite (set_ll_ext _ _ set (fun tr t _ => hP_path m tr)) in M1.
  rewrite (set_ll_ext _ _ set (fun tr t _ => P' tr)) in M1.
  replace (hmm_moved set m m') with (hmm_change m set m'); [exact M1|].
  unfold hmm_change, hmm_moved. f_equal; [|f_equal].
  - f_equal. apply Sum_ext. intros s Hs. apply hIN_path. exact Hs.
  - apply Sum_ext. intros s Hs. rewrite hDEN_path by exact Hs. reflexivity.
  - apply Sum_ext. intros s Hs. rewrite hDEN_path by exact Hs. reflexivity.
Qed.
Theorem C145_hmm_gain : forall (m m' : hmm R) (p : nat) (set : list (list string * Z)) (ll : R),
  wf_hmm m -> hmm_sub m -> pos_times set -> round_HMM p set m = Ok (m', ll) ->
  set_ll (hmm_trace_prob_move m) set + hmm_moved set m m' <= set_ll (hmm_trace_prob_move m') set.
Proof. intros m m' p set ll W S HT E. apply (hmm_gain m set p m' ll); assumption. Qed.
Print Assumptions C145_hmm_gain.

Lemma rect_ext (n J : nat) (a b : list (list R)) : length a = n -> (forall r, In r a -> length r = J) -> length b = n -> (forall r, In r b -> length r = J) ->
  (forall s s', (s < n)%nat -> (s' < J)%nat -> matR a s s' = matR b s s') -> a = b.
Proof.
  intros L1 R1 L2 R2 H. apply (nth_ext _ _ [] []); [congruence|]. intros s Hs. rewrite L1 in Hs.
  apply (nth_ext _ _ 0 0); [rewrite R1, R2; [reflexivity|apply nth_In; lia|apply nth_In; lia]|].
  intros s' Hs'. rewrite R1 in Hs' by (apply nth_In; lia). exact (H s s' Hs Hs').
Qed.
Theorem C145_hmm_strict : forall (m m' : hmm R) (p : nat) (set : list (list string * Z)) (ll : R),
  wf_hmm m -> hmm_sub m -> pos_times set -> round_HMM p set m = Ok (m', ll) ->
  m' = m \/ set_ll (hmm_trace_prob_move m) set < set_ll (hmm_trace_prob_move m') set.
Proof.
  intros m m' p set ll W S HT E. pose proof (C145_hmm_gain m m' p set ll W S HT E) as G.
  destruct S as [[N1 S1] [[N2 S2] Si]]. assert (N : nonneg_hmm m) by (split; assumption). assert (O : hmm_ok m) by (split; assumption).
  destruct (C73_hmm_round_is_ratio_of_expectations m m' p set ll W N E) as (A & B & Sq & _ & K1 & K2 & _).
  destruct (round_HMM_spec m W set N p m' ll E) as (_ & _ & C & _ & Lo & Ro & Li & _ & _ & _ & _ & X).
  destruct (round_hmm_ok m set p m' ll O E HT) as [[W' [N1' N2']] _].
  set (V := fun s => set_expected (hmm_trace_prob_move m) (hmm_expected_visits m s) set).
  assert (Vn : forall s, (s < hmm_n m)%nat -> 0 <= V s).
  { intros s Hs. unfold V. rewrite <- hDEN_path by exact Hs. destruct (hDEN_nonneg m W set N HT s Hs); lra. }
  assert (Tp : 0 < Sum (hmm_n m) (fun s => set_expected (hmm_trace_prob_move m) (hmm_expected_starts m s) set)).
  { rewrite <- (Sum_ext (hmm_n m) (hIN m set)) by (intros s Hs; apply hIN_path; exact Hs). exact (h_INtot m set HT X). }
  unfold hmm_moved in G. set (T := Sum (hmm_n m) (fun s => set_expected (hmm_trace_prob_move m) (hmm_expected_starts m s) set)) in *.
  set (F1 := fun s => set_expected (hmm_trace_prob_move m) (hmm_expected_visits m s) set * moved (hmm_n m) (matR (hmm_mat m) s) (matR (hmm_mat m') s)) in G.
  set (F2 := fun s => set_expected (hmm_trace_prob_move m) (hmm_expected_visits m s) set * moved (length (hmm_alph m)) (matR (hmm_out m) s) (matR (hmm_out m') s)) in G.
  assert (P1 : forall s, (s < hmm_n m)%nat -> 0 <= F1 s) by (intros s Hs; apply Rmult_le_pos; [apply Vn; exact Hs|apply moved_nonneg]).
  assert (P2 : forall s, (s < hmm_n m)%nat -> 0 <= F2 s) by (intros s Hs; apply Rmult_le_pos; [apply Vn; exact Hs|apply moved_nonneg]).
  pose proof (Sum_nonneg _ _ P1) as Q1. pose proof (Sum_nonneg _ _ P2) as Q2.
  pose proof (Rmult_le_pos _ _ (Rlt_le _ _ Tp) (moved_nonneg (hmm_n m) (vecR (hmm_ini m)) (vecR (hmm_ini m')))) as Q0.
  destruct (Rle_dec (T * moved (hmm_n m) (vecR (hmm_ini m)) (vecR (hmm_ini m')) + (Sum (hmm_n m) F1 + Sum (hmm_n m) F2)) 0) as [Z|P]; [left|right; lra].
  assert (Ma : hmm_mat m' = hmm_mat m).
  { apply (mat_ext (hmm_n m)); [exact Sq|apply W|]. intros s s' Hs Hs'.
    assert (Z' : F1 s = 0) by (apply (Sum_nonneg_zero (hmm_n m) F1); auto; lra).
    apply Req_le in Z'. apply visits_moved_zero in Z'; [|apply Vn; exact Hs]. destruct Z' as [V0|V0].
    - rewrite K1 by assumption. destruct (Req_EM_T _ 0); [reflexivity|contradiction].
    - apply (moved_zero (hmm_n m) (matR (hmm_mat m) s) (matR (hmm_mat m') s)); auto; intros j Hj; apply mget_nonneg; assumption. }
  assert (Mo : hmm_out m' = hmm_out m).
  { apply (rect_ext (hmm_n m) (length (hmm_alph m))); try assumption; try apply W. intros s j Hs Hj.
    assert (Z' : F2 s = 0) by (apply (Sum_nonneg_zero (hmm_n m) F2); auto; lra).
    apply Req_le in Z'. apply visits_moved_zero in Z'; [|apply Vn; exact Hs]. destruct Z' as [V0|V0].
    - rewrite K2 by assumption. destruct (Req_EM_T _ 0); [reflexivity|contradiction].
    - apply (moved_zero (length (hmm_alph m)) (matR (hmm_out m) s) (matR (hmm_out m') s)); auto; intros i Hi; apply mget_nonneg; assumption. }
  assert (Mi : hmm_ini m' = hmm_ini m).
  { assert (Li0 : length (hmm_ini m) = hmm_n m) by apply W.
    apply (nth_ext _ _ 0 0); [congruence|]. intros s Hs. rewrite Li in Hs.
    apply (moved_zero (hmm_n m) (vecR (hmm_ini m)) (vecR (hmm_ini m'))); auto.
    - intros j Hj. apply vget_nonneg. apply W.
    - intros j Hj. apply vget_nonneg. apply W'.
    - pose proof (moved_nonneg (hmm_n m) (vecR (hmm_ini m)) (vecR (hmm_ini m'))). nra. }
  destruct m, m'. cbn in *. subst. reflexivity.
Qed.
Print Assumptions C145_hmm_strict.

Theorem C145_hmm_stops : forall (m m' : hmm R) (p max_it c : nat) (set : list (list string * Z)) (eps : R) ll,
  wf_hmm m -> hmm_sub m -> pos_times set ->
  bw_loop (round_HMM p set) eps max_it None 0 m = Ok (m', c, ll, true) ->
  exists k t m1 m2 l1 l2, rounds (round_HMM p set) (hmm_moved set) k m m1 t /\
    round_HMM p set m1 = Ok (m2, l1) /\ round_HMM p set m2 = Ok (m', l2) /\ c = (k + 2)%nat /\ hmm_moved set m1 m2 < eps.
Proof.
  intros m m' p mx c set eps ll W S HT E.
  apply (bw_stops (round_HMM p set) eps (hmm_moved set) (fun x => wf_hmm x /\ hmm_sub x) (fun x => set_ll (hmm_trace_prob_move x) set)) with (fuel := mx) (ll := ll); auto.
  intros x x' l [Wx Sx] Ex. split; [apply (hmm_round_sub x set p x' l Wx Sx HT Ex)|].
  split; [apply (C39_hmm_round_likelihood x x' p set l Wx Sx HT Ex)|apply (hmm_gain x set p x' l Wx Sx HT Ex)].
Qed.
Print Assumptions C145_hmm_stops.

Theorem C145_hmm_total : forall (m m' : hmm R) (p k : nat) (set : list (list string * Z)) (c : R),
  wf_hmm m -> hmm_sub m -> pos_times set -> rounds (round_HMM p set) (hmm_moved set) k m m' c ->
  c <= set_ll (hmm_trace_prob_move m') set - set_ll (hmm_trace_prob_move m) set /\ c <= - set_ll (hmm_trace_prob_move m) set.
Proof.
  intros m m' p k set c W S HT H.
  destruct (rounds_gain (round_HMM p set) (hmm_moved set) (fun x => wf_hmm x /\ hmm_sub x) (fun x => set_ll (hmm_trace_prob_move x) set)) with (2 := H) as [[Wx Sx] G].
  - intros x x' l [Wx Sx] Ex. split; [apply (hmm_round_sub x set p x' l Wx Sx HT Ex)|apply (hmm_gain x set p x' l Wx Sx HT Ex)].
  - split; assumption.
  - split; [exact G|]. enough (set_ll (hmm_trace_prob_move m') set <= 0) by lra.
    apply set_ll_nonpos; [|exact HT]. intros tr t _. apply hmm_move_01; assumption.
Qed.
Print Assumptions C145_hmm_total.

(** ** MDP *)
Lemma mdp_gain m set p m' ll : mdp_ok m -> mdp_rows (fun x => x <= 1) m -> pos_times set -> alternating_set set -> round_MDP p set m = Ok (m', ll) ->
  set_ll (mdp_trace_prob m) set + mdp_moved set m m' <= set_ll (mdp_trace_prob m') set.
Proof.
  intros [W N] S HT A E.
  destruct (round_MDP_spec m W set N p m' ll E) as (A1 & A2 & A3 & A4 & A5 & G & H & L & _).
  destruct (round_mdp_ok m set p m' ll (conj W N) E HT) as [[W' N'] _].
  destruct (d_em_gain m W set N HT m' A2 A1 A5 G H S) as [M1 M2].
  assert (P' : forall tr, alternating tr -> Pof (mdp_n m) (vget (mdp_ini m)) (dW m') (df m) tr = mdp_trace_prob m' tr).
  { intros tr Al. rewrite <- dP_path by assumption. rewrite A5, A3. unfold Pof, df. rewrite A1. reflexivity. }
  rewrite (set_ll_ext _ _ set (fun tr t I => dP_path m tr W (A tr t I))) in M1.
  rewrite (set_ll_ext _ _ set (fun tr t I => P' tr (A tr t I))) in M1.
  replace (mdp_moved set m m') with (mdp_change m set m'); [exact M1|].
  unfold mdp_change, mdp_moved. apply Sum_ext. intros s Hs. apply Sum_ext. intros j Hj. rewrite (dDEN_path m set W A s j Hs). reflexivity.
Qed.
Theorem C145_mdp_gain : forall (m m' : mdp R) (p : nat) (set : list (list string * Z)) (ll : R),
  wf_mdp m -> nonneg_mdp m -> mdp_rows (fun x => x <= 1) m -> pos_times set -> alternating_set set -> round_MDP p set m = Ok (m', ll) ->
  set_ll (mdp_trace_prob m) set + mdp_moved set m m' <= set_ll (mdp_trace_prob m') set.
Proof. intros m m' p set ll W N S HT A E. apply (mdp_gain m set p m' ll); auto. split; assumption. Qed.
Print Assumptions C145_mdp_gain.

Theorem C145_mdp_strict : forall (m m' : mdp R) (p : nat) (set : list (list string * Z)) (ll : R),
  wf_mdp m -> nonneg_mdp m -> mdp_rows (fun x => x <= 1) m -> pos_times set -> alternating_set set -> round_MDP p set m = Ok (m', ll) ->
  m' = m \/ set_ll (mdp_trace_prob m) set < set_ll (mdp_trace_prob m') set.
Proof.
  intros m m' p set ll W N S HT A E. pose proof (C145_mdp_gain m m' p set ll W N S HT A E) as G.
  destruct (C73_mdp_round_is_ratio_of_expectations m m' p set ll W N A E) as (B1 & B2 & B3 & B4 & B5 & _ & K).
  destruct (round_MDP_spec m W set N p m' ll E) as (_ & _ & _ & _ & _ & Sh & _).
  destruct (round_mdp_ok m set p m' ll (conj W N) E HT) as [[W' N'] _].
  set (V := fun s j => set_expected (mdp_trace_prob m) (mdp_expected_visits m s (nth j (mdp_act m) EmptyString)) set).
  assert (Vn : forall s j, (s < mdp_n m)%nat -> 0 <= V s j).
  { intros s j Hs. unfold V. rewrite <- (dDEN_path m set W A s j Hs). destruct (dDEN_nonneg m W set N HT s j Hs); lra. }
  unfold mdp_moved in G.
  set (F := fun s j => set_expected (mdp_trace_prob m) (mdp_expected_visits m s (nth j (mdp_act m) EmptyString)) set
     * moved (mdp_n m) (fun s' => nth s' (nth j (nth s (mdp_mat m) []) []) 0) (fun s' => nth s' (nth j (nth s (mdp_mat m') []) []) 0)) in G.
  assert (Fn : forall s j, (s < mdp_n m)%nat -> 0 <= F s j) by (intros s j Hs; apply Rmult_le_pos; [apply Vn; exact Hs|apply moved_nonneg]).
  change (set_ll (mdp_trace_prob m) set + Sum (mdp_n m) (fun s => Sum (length (mdp_act m)) (F s)) <= set_ll (mdp_trace_prob m') set) in G.
  destruct (Rle_dec (Sum (mdp_n m) (fun s => Sum (length (mdp_act m)) (F s))) 0) as [Z|P]; [left|right; lra].
  assert (Ma : mdp_mat m' = mdp_mat m).
  { apply (nth_ext _ _ [] []); [exact B5|]. intros s Hs. change (length (mdp_mat m')) with (mdp_n m') in Hs. rewrite B5 in Hs.
    assert (I' : In (nth s (mdp_mat m') []) (mdp_mat m')) by (apply nth_In; change (length (mdp_mat m')) with (mdp_n m'); lia).
    assert (I0 : In (nth s (mdp_mat m) []) (mdp_mat m)) by (apply nth_In; exact Hs).
    destruct (Sh _ I') as [L1 R1]. destruct (proj1 W _ I0) as [L0 R0].
    apply (rect_ext (length (mdp_act m)) (mdp_n m)); auto. intros j s' Hj Hs'. change (prob_of m' s j s' = prob_of m s j s').
    assert (Z1 : Sum (length (mdp_act m)) (F s) = 0).
    { apply (Sum_nonneg_zero (mdp_n m) (fun s => Sum (length (mdp_act m)) (F s))); auto. intros i Hi. apply Sum_nonneg. intros; apply Fn; exact Hi. }
    assert (Z' : F s j = 0) by (apply (Sum_nonneg_zero (length (mdp_act m)) (F s)); auto; lra).
    apply Req_le in Z'. apply visits_moved_zero in Z'; [|apply Vn; exact Hs]. destruct Z' as [V0|V0].
    - rewrite K by assumption. cbn zeta. destruct (Req_EM_T _ 0); [reflexivity|contradiction].
    - apply (moved_zero (mdp_n m) (prob_of m s j) (prob_of m' s j)); auto; intros i Hi.
      + apply (mget_nonneg _ j i). exact (N _ I0).
      + apply (mget_nonneg _ j i). exact (N' _ I'). }
  destruct m, m'. cbn in *. subst. reflexivity.
Qed.
Print Assumptions C145_mdp_strict.

Theorem C145_mdp_stops : forall (m m' : mdp R) (p max_it c : nat) (set : list (list string * Z)) (eps : R) ll,
  wf_mdp m -> nonneg_mdp m -> mdp_rows (fun x => x <= 1) m -> pos_times set -> alternating_set set ->
  bw_loop (round_MDP p set) eps max_it None 0 m = Ok (m', c, ll, true) ->
  exists k t m1 m2 l1 l2, rounds (round_MDP p set) (mdp_moved set) k m m1 t /\
    round_MDP p set m1 = Ok (m2, l1) /\ round_MDP p set m2 = Ok (m', l2) /\ c = (k + 2)%nat /\ mdp_moved set m1 m2 < eps.
Proof.
  intros m m' p mx c set eps ll W N S HT A E.
  apply (bw_stops (round_MDP p set) eps (mdp_moved set) (fun x => mdp_ok x /\ mdp_rows (fun v => v <= 1) x) (fun x => set_ll (mdp_trace_prob x) set)) with (fuel := mx) (ll := ll); auto.
  - intros x x' l [[Wx Nx] Sx] Ex. split; [apply (mdp_round_sub x set p x' l (conj Wx Nx) Sx HT Ex)|].
    split; [apply (C40_mdp_round_likelihood x x' p set l Wx Nx Sx HT A Ex)|apply (mdp_gain x set p x' l (conj Wx Nx) Sx HT A Ex)].
  - split; [split; assumption|assumption].
Qed.
Print Assumptions C145_mdp_stops.

Theorem C145_mdp_total : forall (m m' : mdp R) (p k : nat) (set : list (list string * Z)) (c : R),
  wf_mdp m -> nonneg_mdp m -> mdp_rows (fun x => x <= 1) m -> rsum (mdp_ini m) <= 1 -> pos_times set -> alternating_set set ->
  rounds (round_MDP p set) (mdp_moved set) k m m' c ->
  c <= set_ll (mdp_trace_prob m') set - set_ll (mdp_trace_prob m) set /\ c <= - set_ll (mdp_trace_prob m) set.
Proof.
  intros m m' p k set c W N S Si HT A H.
  destruct (rounds_gain (round_MDP p set) (mdp_moved set) (fun x => (mdp_ok x /\ mdp_rows (fun v => v <= 1) x) /\ rsum (mdp_ini x) <= 1) (fun x => set_ll (mdp_trace_prob x) set)) with (2 := H) as [[[[Wx Nx] Sx] Ix] G].
  - intros x x' l [[Ox Sx] Ix] Ex. split; [split; [apply (mdp_round_sub x set p x' l Ox Sx HT Ex)|]|apply (mdp_gain x set p x' l Ox Sx HT A Ex)].
    destruct (C73_mdp_round_is_ratio_of_expectations x x' p set l (proj1 Ox) (proj2 Ox) A Ex) as (_ & _ & -> & _). exact Ix.
  - split; [split; [split; assumption|assumption]|exact Si].
  - split; [exact G|]. enough (set_ll (mdp_trace_prob m') set <= 0) by lra.
    apply set_ll_nonpos; [|exact HT]. intros tr t I. apply mdp_prob_01; auto. exact (A tr t I).
Qed.
Print Assumptions C145_mdp_total.
