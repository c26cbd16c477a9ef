(** Theorems about learning hidden Markov models: C33, C35, C37, C39, C42, C73. *)
From Coq Require Import String ZArith Bool Reals List Lia Lra Permutation.
From Verif Require Import Num Py SNum SPath LSum MSet SSet LSet MModels MLik MBW LFB LEM SBW LBW LBWSet LBWMC SLik LPath LLik LLik2 LBWLoop LBWPath SExp LEMGen LBWHMM PLik LFit.
Import ListNotations.
Local Open Scope R_scope.

Notation fo1 := (fun (_ : list string) (_ : nat) => 1).
Notation hP m := (Pof (hmm_n m) (vget (hmm_ini m)) (hW m) fo1).

Lemma hP_path (m : hmm R) tr : hP m tr = hmm_trace_prob_move m tr.
Proof. unfold Pof, hmm_trace_prob_move. rewrite trace_prob_move_tot. reflexivity. Qed.
Lemma hW_wts m (tr : list string) : hW m tr = wts (repeat (matR (hmm_mat m)) (length tr)) (map (emit m) tr).
Proof. rewrite wts_map. reflexivity. Qed.

(** ** C33 *)
Theorem C33_hmm_forward_backward : forall (m : hmm R) (tr : list string) (k : nat), wf_hmm m -> (k <= length tr)%nat ->
  Sum (hmm_n m) (fun s => vecR (nth k (bw_alphas (hmm_n m) (hmm_ini m) (hmm_ws m tr)) []) s
                        * vecR (nth k (bw_betas (hmm_n m) (vones (hmm_n m)) (hmm_ws m tr)) []) s)
  = hmm_trace_prob_move m tr.
Proof.
  intros m tr k W Hk. rewrite hmm_ws_eq by exact W. change vecR with (@vget R RNum).
  rewrite fb_position; [|apply W|apply vones_length|unfold hW; rewrite ew_length; exact Hk].
  rewrite <- hP_path. apply tot_ext_f. intros; apply vget_vones; assumption.
Qed.
Print Assumptions C33_hmm_forward_backward.

(** ** C73 *)
Lemma hGA_path (m : hmm R) set s (g : string -> R) : (s < hmm_n m)%nat ->
  GA (hmm_n m) set (vget (hmm_ini m)) (hW m) fo1 (fun tr => map g tr) s =
  set_expected (hmm_trace_prob_move m) (hmm_expected m (fun o => on_leave s (g o))) set.
Proof.
  intros Hs. rewrite (GA_expected _ _ _ _ _ (fun tr => repeat (matR (hmm_mat m)) (length tr)) (fun tr => map (emit m) tr)); auto.
  - apply set_expected_ext; intros tr t I; [reflexivity|]. intros _. unfold hmm_expected. rewrite map_map. reflexivity.
  - intros tr t _. apply hW_wts.
  - intros tr t _. rewrite repeat_length, map_length. reflexivity.
  - intros tr t _. rewrite !map_length. reflexivity.
Qed.
Lemma hDEN_path (m : hmm R) set s : (s < hmm_n m)%nat -> hDEN m set s = set_expected (hmm_trace_prob_move m) (hmm_expected_visits m s) set.
Proof.
  intros Hs. unfold hDEN, hmm_expected_visits. rewrite <- (hGA_path m set s (fun _ => 1)) by exact Hs. apply psum_ext. intros tr t _ _. f_equal. f_equal. unfold ones1, hW. rewrite ew_length.
  induction tr; cbn; [reflexivity|]. f_equal. assumption.
Qed.
Lemma hNB_path (m : hmm R) set s j : (s < hmm_n m)%nat ->
  hNB m set s j = set_expected (hmm_trace_prob_move m) (hmm_expected_emissions m s (nth j (hmm_alph m) EmptyString)) set.
Proof.
  intros Hs. unfold hNB, hmm_expected_emissions. rewrite <- (hGA_path m set s (fun x => ind (String.eqb x (nth j (hmm_alph m) EmptyString)))) by exact Hs.
  apply psum_ext. intros tr t _ _. f_equal. f_equal. apply map_ext. intros o. unfold letter, ind. rewrite String.eqb_sym. reflexivity.
Qed.
Lemma hNUM_path (m : hmm R) set s s' : (s < hmm_n m)%nat -> (s' < hmm_n m)%nat ->
  hNUM m set s s' = set_expected (hmm_trace_prob_move m) (hmm_expected_moves m s s') set.
Proof.
  intros Hs Hs'. unfold hNUM. rewrite (XI_expected _ _ _ _ _ (fun tr => repeat (matR (hmm_mat m)) (length tr)) (fun tr => map (emit m) tr)); auto.
  - apply set_expected_ext; intros tr t I; [reflexivity|]. intros _. unfold hmm_expected_moves, hmm_expected, ones1. f_equal. unfold hW. rewrite ew_length. apply map_const.
  - intros tr t _. apply hW_wts.
  - intros tr t _. rewrite repeat_length, map_length. reflexivity.
  - intros tr t _. unfold ones1, hW. rewrite repeat_length, ew_length, map_length. reflexivity.
Qed.
Lemma hIN_path (m : hmm R) set s : (s < hmm_n m)%nat ->
  hIN m set s = set_expected (hmm_trace_prob_move m) (hmm_expected_starts m s) set.
Proof.
  intros Hs. unfold hIN, IN, psum, set_expected. apply sumL_ext. intros [tr t] I. cbn [fst snd]. rewrite hP_path.
  destruct (Rlt_dec _ _); [|reflexivity]. unfold fac. rewrite hP_path. unfold hmm_expected_starts.
  rewrite starts_Bk by (rewrite ?repeat_length, ?map_length; auto). rewrite hW_wts. change (@vget R RNum (hmm_ini m) s) with (vecR (hmm_ini m) s). unfold Rdiv. ring.
Qed.

(** A round replaces transition, emission and initial probabilities by ratios of
    expected counts given the traces. *)
Theorem C73_hmm_round_is_ratio_of_expectations : forall (m m' : hmm R) (p : nat) (set : list (list string * Z)) (ll : R),
  wf_hmm m -> nonneg_hmm m -> round_HMM p set m = Ok (m', ll) ->
  let E X := set_expected (hmm_trace_prob_move m) X set in
  hmm_alph m' = hmm_alph m /\ hmm_name m' = hmm_name m /\ square (hmm_n m) (hmm_mat m') /\
  ll = set_ll (hmm_trace_prob_move m) set /\
  (forall s s', (s < hmm_n m)%nat -> (s' < hmm_n m)%nat ->
    matR (hmm_mat m') s s' = if Req_EM_T (E (hmm_expected_visits m s)) 0 then matR (hmm_mat m) s s'
                             else E (hmm_expected_moves m s s') / E (hmm_expected_visits m s)) /\
  (forall s j, (s < hmm_n m)%nat -> (j < length (hmm_alph m))%nat ->
    matR (hmm_out m') s j = if Req_EM_T (E (hmm_expected_visits m s)) 0 then matR (hmm_out m) s j
                            else E (hmm_expected_emissions m s (nth j (hmm_alph m) EmptyString)) / E (hmm_expected_visits m s)) /\
  (forall s, (s < hmm_n m)%nat ->
    vecR (hmm_ini m') s = E (hmm_expected_starts m s) / Sum (hmm_n m) (fun i => E (hmm_expected_starts m i))).
Proof.
  intros m m' p set ll W N Er E. destruct (round_HMM_spec m W set N p m' ll Er) as (A & B & C & D & _ & _ & _ & G & H & I & L & _).
  split; [exact A|]. split; [exact B|]. split; [exact D|]. split.
  { rewrite L. apply set_ll_ext. intros; apply hP_path. }
  split; [|split].
  - intros s s' Hs Hs'. change matR with (@mget R RNum). rewrite G by assumption. unfold est. rewrite hDEN_path, hNUM_path by assumption. reflexivity.
  - intros s j Hs Hj. change matR with (@mget R RNum). rewrite H by assumption. unfold est. rewrite hDEN_path, hNB_path by assumption. reflexivity.
  - intros s Hs. change vecR with (@vget R RNum). rewrite I by assumption. rewrite hIN_path by exact Hs. f_equal. apply Sum_ext. intros i Hi. apply hIN_path. exact Hi.
Qed.
Print Assumptions C73_hmm_round_is_ratio_of_expectations.

(** ** C35 *)

Definition hmm_ok (m : hmm R) : Prop := wf_hmm m /\ nonneg_hmm m.
Lemma round_hmm_ok m set p m' ll : hmm_ok m -> round_HMM p set m = Ok (m', ll) -> pos_times set ->
  hmm_ok m' /\ hmm_n m' = hmm_n m /\ hmm_alph m' = hmm_alph m /\ hmm_name m' = hmm_name m /\ rsum (hmm_ini m') = 1.
Proof.
  intros [W N] E HT. destruct (round_HMM_spec m W set N p m' ll E) as (A & B & C & D & Lo & Ro & Li & G & H & I & L & X).
  split; [split|].
  - unfold wf_hmm. rewrite A, C. repeat split; auto; try apply D; try apply W. apply (h_ini_nonneg' m W set N HT m' X Li I).
  - apply (h_nonneg' m W set N HT m' C D Lo Ro Li G H).
  - repeat split; auto. apply (h_ini_sum' m set HT m' X Li I).
Qed.
Lemma hrow_rule m set p m' ll (Q : R -> Prop) : hmm_ok m -> round_HMM p set m = Ok (m', ll) -> Q 1 ->
  (forall r, In r (hmm_mat m) -> Q (rsum r)) -> (forall r, In r (hmm_out m) -> Q (rsum r)) ->
  (forall r, In r (hmm_mat m') -> Q (rsum r)) /\ (forall r, In r (hmm_out m') -> Q (rsum r)).
Proof.
  intros [W N] E Q1 H1 H2. destruct (round_HMM_spec m W set N p m' ll E) as (A & B & C & D & Lo & Ro & Li & G & H & I & L & X).
  split; intros r Ir; apply (In_nth _ _ []) in Ir; destruct Ir as [s [Hs <-]].
  - rewrite (proj1 D) in Hs. rewrite (h_row_sum' m W set m' D G s Hs). destruct (Req_EM_T _ 0); [|exact Q1]. apply H1, (nth_mget_in _ (hmm_n m)); [apply W|exact Hs].
  - rewrite Lo in Hs. rewrite (h_out_sum' m W set N m' C Lo Ro Li H s Hs). destruct (Req_EM_T _ 0); [|exact Q1]. apply H2, nth_In.
    destruct W as (_ & L2 & _). rewrite L2. exact Hs.
Qed.

Theorem C35_hmm_learning_stochastic : forall (m m' : hmm R) (p max_it c : nat) (set : list (list string * Z)) (eps : R) ll stopped,
  wf_hmm m -> stochastic (hmm_mat m) -> stochastic (hmm_out m) -> rsum (hmm_ini m) = 1 -> pos_times set ->
  bw_loop (round_HMM p set) eps max_it None 0 m = Ok (m', c, ll, stopped) ->
  wf_hmm m' /\ stochastic (hmm_mat m') /\ stochastic (hmm_out m') /\ rsum (hmm_ini m') = 1 /\
  hmm_n m' = hmm_n m /\ hmm_alph m' = hmm_alph m /\ hmm_name m' = hmm_name m.
Proof.
  intros m m' p mx c set eps ll st W [N1 S1] [N2 S2] Si HT E.
  apply (bw_loop_inv _ _ (fun x => (hmm_ok x /\ (forall r, In r (hmm_mat x) -> rsum r = 1) /\ (forall r, In r (hmm_out x) -> rsum r = 1) /\ rsum (hmm_ini x) = 1) /\
     hmm_n x = hmm_n m /\ hmm_alph x = hmm_alph m /\ hmm_name x = hmm_name m)) in E.
  - destruct E as [[[W' [N' N2']] [S' [S2' Si']]] [A [B C]]]. repeat split; auto; try apply W'.
  - intros x x' l [[Ok1 [S' [S2' Si']]] [A [B C]]] Er. destruct (round_hmm_ok x set p x' l Ok1 Er HT) as [Ok2 [A' [B' [C' I']]]].
    destruct (hrow_rule x set p x' l (fun v => v = 1) Ok1 Er eq_refl S' S2') as [R1 R2].
    split; [split; [exact Ok2|auto]|repeat split; congruence].
  - split; [split; [split; [exact W|split; assumption]|auto]|auto].
Qed.
Print Assumptions C35_hmm_learning_stochastic.

(** States with no expected visit keep their transitions and emissions. *)
Theorem C35_hmm_unvisited_round : forall (m m' : hmm R) (p s : nat) (set : list (list string * Z)) (ll : R),
  wf_hmm m -> nonneg_hmm m -> round_HMM p set m = Ok (m', ll) -> (s < hmm_n m)%nat ->
  (forall tr t, In (tr, t) set -> hmm_expected_visits m s tr = 0) ->
  (forall s', (s' < hmm_n m)%nat -> matR (hmm_mat m') s s' = matR (hmm_mat m) s s') /\
  (forall j, (j < length (hmm_alph m))%nat -> matR (hmm_out m') s j = matR (hmm_out m) s j).
Proof.
  intros m m' p s set ll W N Er Hs Hv. destruct (C73_hmm_round_is_ratio_of_expectations m m' p set ll W N Er) as (_ & _ & _ & _ & G & H & _).
  assert (Z : set_expected (hmm_trace_prob_move m) (hmm_expected_visits m s) set = 0).
  { unfold set_expected. apply sumL_zero_ext. intros [tr t] I. cbn [fst snd]. rewrite (Hv tr t I). destruct (Rlt_dec _ _); [|reflexivity]. unfold Rdiv. ring. }
  split; intros; [rewrite G by assumption|rewrite H by assumption]; rewrite Z; destruct (Req_EM_T 0 0); congruence.
Qed.
Print Assumptions C35_hmm_unvisited_round.

(** ** C37 *)
Theorem C37_hmm_zero_stays_zero : forall (m m' : hmm R) (p max_it c : nat) (set : list (list string * Z)) (eps : R) ll stopped,
  wf_hmm m -> nonneg_hmm m -> pos_times set ->
  bw_loop (round_HMM p set) eps max_it None 0 m = Ok (m', c, ll, stopped) ->
  (forall s s', (s < hmm_n m)%nat -> (s' < hmm_n m)%nat -> matR (hmm_mat m) s s' = 0 -> matR (hmm_mat m') s s' = 0) /\
  (forall s j, (s < hmm_n m)%nat -> (j < length (hmm_alph m))%nat -> matR (hmm_out m) s j = 0 -> matR (hmm_out m') s j = 0) /\
  (forall s, (s < hmm_n m)%nat -> vecR (hmm_ini m) s = 0 -> vecR (hmm_ini m') s = 0).
Proof.
  intros m m' p mx c set eps ll st W N HT E.
  apply (bw_loop_inv _ _ (fun x => (hmm_ok x /\ hmm_n x = hmm_n m /\ hmm_alph x = hmm_alph m) /\
    (forall s s', (s < hmm_n m)%nat -> (s' < hmm_n m)%nat -> matR (hmm_mat m) s s' = 0 -> matR (hmm_mat x) s s' = 0) /\
    (forall s j, (s < hmm_n m)%nat -> (j < length (hmm_alph m))%nat -> matR (hmm_out m) s j = 0 -> matR (hmm_out x) s j = 0) /\
    (forall s, (s < hmm_n m)%nat -> vecR (hmm_ini m) s = 0 -> vecR (hmm_ini x) s = 0))) in E.
  - apply E.
  - intros x x' l [[Ok1 [A B]] [Z1 [Z2 Z3]]] Er. destruct (round_hmm_ok x set p x' l Ok1 Er HT) as [Ok2 [A' [B' _]]].
    split; [split; [exact Ok2|split; congruence]|]. destruct Ok1 as [W1 N1].
    destruct (round_HMM_spec x W1 set N1 p x' l Er) as (_ & _ & _ & D & Lo & Ro & Li & G & H & I & L & X).
    split; [|split].
    + intros s s' Hs Hs' Z. rewrite <- A in Hs, Hs'. apply (h_zero' x set x' G s s' Hs Hs'). apply Z1; auto; rewrite <- A; assumption.
    + intros s j Hs Hj Z. rewrite <- A in Hs. rewrite <- B in Hj. apply (h_out_zero' x W1 set x' H s j Hs Hj). apply Z2; auto; [rewrite <- A|rewrite <- B]; assumption.
    + intros s Hs Z. rewrite <- A in Hs. change vecR with (@vget R RNum). rewrite I by exact Hs. unfold hIN. rewrite IN_zero; [unfold Rdiv; ring|].
      apply Z3; [rewrite <- A; exact Hs|exact Z].
  - repeat split; auto; try apply W; try apply N.
Qed.
Print Assumptions C37_hmm_zero_stays_zero.

(** ** C39 *)
Definition hmm_sub (m : hmm R) : Prop :=
  substochastic (hmm_mat m) /\ substochastic (hmm_out m) /\ rsum (hmm_ini m) <= 1.

Theorem C39_hmm_round_likelihood : forall (m m' : hmm R) (p : nat) (set : list (list string * Z)) (ll : R),
  wf_hmm m -> hmm_sub m -> pos_times set -> round_HMM p set m = Ok (m', ll) ->
  ll = set_ll (hmm_trace_prob_move m) set /\
  set_ll (hmm_trace_prob_move m) set <= set_ll (hmm_trace_prob_move m') set /\
  (forall tr t, In (tr, t) set -> (0 < hmm_trace_prob_move m tr <-> 0 < hmm_trace_prob_move m' tr)).
Proof.
  intros m m' p set ll W [[N1 S1] [[N2 S2] Si]] HT E. assert (N : nonneg_hmm m) by (split; assumption).
  destruct (round_HMM_spec m W set N p m' ll E) as (A & B & C & D & Lo & Ro & Li & G & H & I & L & X).
  destruct (h_em_mono m W set N HT m' X A C D Lo Ro Li G H I S1 S2 Si) as [M1 M2].
  assert (P' : forall tr, Pof (hmm_n m) (vget (hmm_ini m')) (hW m') fo1 tr = hmm_trace_prob_move m' tr).
  { intros tr. rewrite <- hP_path. rewrite C. reflexivity. }
  rewrite (set_ll_ext _ _ set (fun tr t _ => hP_path m tr)) in L, M1.
  rewrite (set_ll_ext _ _ set (fun tr t _ => P' tr)) in M1.
  split; [exact L|]. split; [exact M1|]. intros tr t It. rewrite <- hP_path, <- P'. exact (M2 tr t It).
Qed.
Print Assumptions C39_hmm_round_likelihood.

Lemma hmm_round_sub m set p m' ll : wf_hmm m -> hmm_sub m -> pos_times set -> round_HMM p set m = Ok (m', ll) -> wf_hmm m' /\ hmm_sub m'.
Proof.
  intros W [[N1 S1] [[N2 S2] Si]] HT E. assert (O1 : hmm_ok m) by (repeat split; auto; apply W).
  destruct (round_hmm_ok m set p m' ll O1 E HT) as [[W' [N1' N2']] [_ [_ [_ I']]]].
  destruct (hrow_rule m set p m' ll (fun v => v <= 1) O1 E) as [R1 R2]; auto; [lra|].
  split; [exact W'|]. repeat split; auto. lra.
Qed.
Lemma hmm_move_trace (m : hmm R) tr : wf_hmm m -> (forall r, In r (hmm_mat m) -> rsum r = 1) -> tr <> [] -> hmm_trace_prob_move m tr = hmm_trace_prob m tr.
Proof.
  intros W S1 NE. unfold hmm_trace_prob_move, hmm_trace_prob. apply trace_prob_move_eq; [exact NE|]. apply row_sums; [apply W|exact S1].
Qed.

Theorem C39_hmm_fit_improves_logLikelihood : forall (m m' : hmm R) (p max_it c : nat) (s : tset (list string)) (eps : R) ll stopped,
  wf_hmm m -> stochastic (hmm_mat m) -> stochastic (hmm_out m) -> rsum (hmm_ini m) = 1 -> usable s ->
  bw_loop (round_HMM p (weighted s)) eps max_it None 0 m = Ok (m', c, ll, stopped) ->
  exists v v', hmm_logLikelihood m s = Ok v /\ hmm_logLikelihood m' s = Ok v' /\ v <= v'.
Proof.
  intros m m' p mx c s eps ll st W S1 S2 Si U E. pose proof (weighted_pos s U) as HT.
  destruct (C35_hmm_learning_stochastic m m' p mx c (weighted s) eps ll st W S1 S2 Si HT E) as [W' [S1' [S2' [Si' _]]]].
  assert (M : set_ll (hmm_trace_prob_move m) (weighted s) <= set_ll (hmm_trace_prob_move m') (weighted s)).
  { apply (bw_loop_mono _ _ (fun x => wf_hmm x /\ hmm_sub x) (fun x => set_ll (hmm_trace_prob_move x) (weighted s))) in E.
    - apply E.
    - intros x x' l [Wx Sx] Er. split; [apply (hmm_round_sub x (weighted s) p x' l); auto|].
      apply (C39_hmm_round_likelihood x x' p (weighted s) l Wx Sx HT Er).
    - split; [exact W|]. destruct S1 as [Na Sa], S2 as [Nb Sb]. split; [split; [exact Na|]|split; [split; [exact Nb|]|lra]]; intros r Ir; rewrite ?(Sa r Ir), ?(Sb r Ir); lra. }
  exists (avg_ll (hmm_trace_prob m) (weighted s)), (avg_ll (hmm_trace_prob m') (weighted s)).
  split; [apply C27_hmm_logLikelihood; assumption|]. split; [apply C27_hmm_logLikelihood; assumption|].
  rewrite (set_ll_ext (hmm_trace_prob_move m) (hmm_trace_prob m)) in M by (intros tr t I; apply hmm_move_trace; [exact W|apply S1|exact (weighted_ne s tr t U I)]).
  rewrite (set_ll_ext (hmm_trace_prob_move m') (hmm_trace_prob m')) in M by (intros tr t I; apply hmm_move_trace; [exact W'|apply S1'|exact (weighted_ne s tr t U I)]).
  apply avg_le; assumption.
Qed.
Print Assumptions C39_hmm_fit_improves_logLikelihood.

(** ** C42 *)
Lemma emit_01 (m : hmm R) o s : wf_hmm m -> substochastic (hmm_out m) -> (s < hmm_n m)%nat -> 0 <= emit m o s <= 1.
Proof.
  intros W [N S1] Hs. split; [apply emit_nonneg'; exact N|].
  destruct (in_dec String.string_dec o (hmm_alph m)) as [K|K]; [|rewrite emit_out by exact K; lra].
  apply (In_nth _ _ EmptyString) in K. destruct K as [j [Hj <-]]. destruct W as (_ & Lo & Ro & ND & _). rewrite emit_nth by assumption.
  assert (Hs' : (s < length (hmm_out m))%nat) by lia. pose proof (nth_In (hmm_out m) [] Hs') as Ir.
  apply Rle_trans with (rsum (nth s (hmm_out m) [])); [|apply S1; exact Ir].
  rewrite rsum_nth. apply (Sum_ge_term _ (fun i => nth i (nth s (hmm_out m) []) 0) j); [rewrite (Ro _ Ir); exact Hj|].
  intros i Hi. apply (N _ Ir). apply nth_In. exact Hi.
Qed.
Lemma hmm_move_01 (m : hmm R) tr : wf_hmm m -> hmm_sub m -> 0 <= hmm_trace_prob_move m tr <= 1.
Proof.
  intros W [S1 [S2 Si]]. unfold hmm_trace_prob_move. apply move_01; auto; try apply W.
  intros o s Hs. apply emit_01; assumption.
Qed.
Lemma round_hmm_succeeds m set p : hmm_ok m ->
  (exists tr t, In (tr, t) set /\ 0 < hmm_trace_prob_move m tr) ->
  ((1 < p)%nat \/ forall tr t, In (tr, t) set -> 0 < hmm_trace_prob_move m tr) ->
  exists m' ll, round_HMM p set m = Ok (m', ll).
Proof.
  intros [W N] Ex Hp. unfold round_HMM, update_HMM.
  rewrite (unwrap_gen (hmm_n m) set (vget (hmm_ini m)) (hW m) fo1 _ (hmk m) (h_work m W set)).
  - cbn [bind]. destruct (goods (processWork_HMM m) set) eqn:G; [|eauto]. exfalso. revert G.
    apply (goods_ne (hmm_n m) set (vget (hmm_ini m)) (hW m) fo1 _ (hmk m) (h_work m W set)).
    destruct Ex as [tr [t [I Q]]]. exists tr, t. rewrite hP_path. auto.
  - destruct Hp as [Hp|Hp]; [left; exact Hp|right]. intros tr t I. rewrite hP_path. eauto.
Qed.

Theorem C42_hmm_terminates : forall (m : hmm R) (p : nat) (set : list (list string * Z)) (eps : R) (N : nat),
  wf_hmm m -> hmm_sub m -> pos_times set -> 0 < eps ->
  (exists tr t, In (tr, t) set /\ 0 < hmm_trace_prob_move m tr) ->
  ((1 < p)%nat \/ forall tr t, In (tr, t) set -> 0 < hmm_trace_prob_move m tr) ->
  - set_ll (hmm_trace_prob_move m) set < INR N * eps ->
  exists m' c ll, (c <= S N)%nat /\
    forall max_it, (S N <= max_it)%nat -> bw_loop (round_HMM p set) eps max_it None 0 m = Ok (m', c, Some ll, true).
Proof.
  intros m p set eps N W Hsub HT He Hex Hp HN.
  destruct (bw_terminates (round_HMM p set) eps
     (fun x => (wf_hmm x /\ hmm_sub x) /\
               (exists tr t, In (tr, t) set /\ 0 < hmm_trace_prob_move x tr) /\
               ((1 < p)%nat \/ forall tr t, In (tr, t) set -> 0 < hmm_trace_prob_move x tr))
     (fun x => set_ll (hmm_trace_prob_move x) set) He) with (N := N) (m := m) as [m' [c [ll [E Hc]]]].
  - intros x [[Wx Sx] [Hex' Hp']]. split.
    + apply set_ll_nonpos; [|exact HT]. intros tr t I. apply hmm_move_01; assumption.
    + destruct (round_hmm_succeeds x set p) as [x' [l Er]]; auto.
      { repeat split; try apply Wx; apply Sx. }
      destruct (C39_hmm_round_likelihood x x' p set l Wx Sx HT Er) as [-> [_ Ps]]. exists x'. split; [exact Er|].
      split; [eapply hmm_round_sub; eauto|]. split.
      * destruct Hex' as [tr [t [I P]]]. exists tr, t. split; [exact I|]. apply (Ps tr t I). exact P.
      * destruct Hp' as [L|L]; [left; exact L|right]. intros tr t I. apply (Ps tr t I). exact (L tr t I).
  - auto.
  - exact HN.
  - exists m', c, ll. split; [exact Hc|]. intros mx Hmx. replace mx with (S N + (mx - S N))%nat by lia. apply bw_loop_more. exact E.
Qed.
Print Assumptions C42_hmm_terminates.

(** Example: two hidden states, two symbols. *)
Definition ex_hmm : hmm R := mkHMM [[1/2; 1/2]; [1/3; 2/3]] [[1; 0]; [1/4; 3/4]] ["x"; "y"]%string [1; 0] "ex"%string.
Definition ex_hset : tset (list string) := mkset [["x"; "y"]; ["x"; "x"]]%string [2; 1]%Z (Some 0%Z).
Example C35_C37_C39_C42_instance : wf_hmm ex_hmm /\ stochastic (hmm_mat ex_hmm) /\ stochastic (hmm_out ex_hmm) /\ rsum (hmm_ini ex_hmm) = 1 /\
  hmm_sub ex_hmm /\ usable ex_hset /\ (forall tr t, In (tr, t) (weighted ex_hset) -> 0 < hmm_trace_prob_move ex_hmm tr) /\
  (exists m' ll, round_HMM 1 (weighted ex_hset) ex_hmm = Ok (m', ll)) /\ matR (hmm_out ex_hmm) 0 1 = 0.
Proof.
  assert (W : wf_hmm ex_hmm).
  { unfold wf_hmm, square, hmm_n; cbn. repeat split; auto.
    - intros r [<-|[<-|[]]]; reflexivity.
    - intros r [<-|[<-|[]]]; reflexivity.
    - constructor; [intros [H|[]]; discriminate|]. constructor; [intros []|constructor].
    - intros v [<-|[<-|[]]]; lra. }
  assert (S1 : stochastic (hmm_mat ex_hmm)).
  { split; intros r [<-|[<-|[]]]; [| |cbn; lra|cbn; lra]; intros v [<-|[<-|[]]]; lra. }
  assert (S2 : stochastic (hmm_out ex_hmm)).
  { split; intros r [<-|[<-|[]]]; [| |cbn; lra|cbn; lra]; intros v [<-|[<-|[]]]; lra. }
  assert (Si : rsum (hmm_ini ex_hmm) = 1) by (cbn; lra).
  assert (Hs : hmm_sub ex_hmm).
  { destruct S1 as [Na Sa], S2 as [Nb Sb]. split; [split; [exact Na|]|split; [split; [exact Nb|]|lra]]; intros r Ir; rewrite ?(Sa r Ir), ?(Sb r Ir); lra. }
  assert (P : forall tr t, In (tr, t) (weighted ex_hset) -> 0 < hmm_trace_prob_move ex_hmm tr).
  { intros tr t [E|[E|[]]]; inversion E; subst; unfold hmm_trace_prob_move, trace_prob, sumL, emit, Sum, sumL; cbn; lra. }
  repeat (split; [assumption|]). split.
  { split; [reflexivity|]. split; [intros t [<-|[<-|[]]]; lia|]. intros [H|[H|[]]]; discriminate. }
  split; [exact P|]. split; [|cbn; reflexivity].
  apply round_hmm_succeeds; [split; [exact W|split; [apply S1|apply S2]]| |right; exact P].
  exists ["x"; "x"]%string, 1%Z. split; [right; left; reflexivity|]. apply (P _ 1%Z). right; left; reflexivity.
Qed.
