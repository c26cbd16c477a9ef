(** Theorems about learning Markov decision processes: C33, C36, C37, C40, C42, C73. *)
From Coq Require Import String ZArith Bool Reals List Lia Lra Permutation.
From Verif Require Import Num Py SNum SPath LSum MSet SSet LSet MModels MLik MBW LFB LEM SBW LBW LBWSet LBWMC SLik LPath LLik LLik2 LBWLoop LBWPath SExp LEMGen LBWMDP PLik LFit.
Import ListNotations.
Local Open Scope R_scope.

Notation dP m := (Pof (mdp_n m) (vget (mdp_ini m)) (dW m) (df m)).

(** Alternating sequences: observation, action, ..., observation. *)
Definition alternating (tr : list string) : Prop := Nat.odd (length tr) = true.
Definition alternating_set (set : list (list string * Z)) : Prop := forall tr t, In (tr, t) set -> alternating tr.

Lemma dP_path (m : mdp R) tr : wf_mdp m -> alternating tr -> dP m tr = mdp_trace_prob m tr.
Proof. intros W A. rewrite mdp_trace_prob_tot by assumption. rewrite mdp_ws_eq by exact W. reflexivity. Qed.
Lemma dW_wts m (tr : list string) : wf_mdp m -> alternating tr ->
  dW m tr = wts (map (act_mat m) (odds tr)) (map (is_label (mdp_lab m)) (removelast (evens tr))).
Proof. intros W A. rewrite <- mdp_ws_eq by exact W. destruct (pairs_evens tr A) as [-> _]. apply wts_combine. exact W. Qed.
Lemma evens_split (m : mdp R) tr : alternating tr ->
  map (is_label (mdp_lab m)) (evens tr) = map (is_label (mdp_lab m)) (removelast (evens tr)) ++ [df m tr].
Proof.
  intros A. destruct (pairs_evens tr A) as [_ [L E]]. assert (NE : evens tr <> []) by (intros Z; rewrite Z in L; discriminate).
  rewrite (app_removelast_last EmptyString NE) at 1. rewrite map_app. unfold df. rewrite (E EmptyString). reflexivity.
Qed.
Lemma odds_len tr : alternating tr -> length (odds tr) = length (removelast (evens tr)).
Proof. intros A. destruct (pairs_evens tr A) as [_ [L _]]. rewrite removelast_length. lia. Qed.
Lemma pairs_odds {E} (tr : list E) : Nat.odd (length tr) = true -> map snd (pairs_of tr) = odds tr.
Proof.
  intros A. destruct (pairs_evens tr A) as [-> [L _]]. rewrite map_snd_combine; [reflexivity|]. rewrite removelast_length. lia.
Qed.

(** ** C33 *)
Theorem C33_mdp_forward_backward : forall (m : mdp R) (tr : list string) (k : nat), wf_mdp m -> alternating tr -> (k <= length (odds tr))%nat ->
  let ws := map (mdp_w m) (pairs_of tr) in
  let mask := lab_mask (mdp_n m) (mdp_lab m) (last tr EmptyString) in
  Sum (mdp_n m) (fun s => vecR (nth k (mask_last mask (bw_alphas (mdp_n m) (mdp_ini m) ws)) []) s
                        * vecR (nth k (bw_betas (mdp_n m) (zipwith nmul (vones (mdp_n m)) mask) ws) []) s)
  = mdp_trace_prob m tr.
Proof.
  intros m tr k W A Hk ws mask. rewrite <- dP_path by assumption.
  assert (Lw : length ws = length (odds tr)).
  { unfold ws. rewrite map_length, <- (map_length snd), pairs_odds by exact A. reflexivity. }
  assert (La : length (bw_alphas (mdp_n m) (mdp_ini m) ws) = S (length ws)).
  { clear. generalize (mdp_ini m). induction ws as [|w ws IH]; intros a; cbn; auto. }
  assert (E : forall k, (k <= length ws)%nat -> Sum (mdp_n m) (fun s => vget (nth k (bw_alphas (mdp_n m) (mdp_ini m) ws) []) s
      * vget (nth k (bw_betas (mdp_n m) (zipwith nmul (vones (mdp_n m)) mask) ws) []) s) = dP m tr).
  { intros i Hi. rewrite fb_position; [|apply W|exact (mask_len m tr)|exact Hi]. unfold ws, Pof. rewrite mdp_ws_eq by exact W.
    apply tot_ext_f. intros s Hs. apply (mask_ok m tr s Hs). }
  rewrite <- (E k) by lia. change vecR with (@vget R RNum). apply Sum_ext. intros s Hs. unfold mask_last.
  set (al := bw_alphas (mdp_n m) (mdp_ini m) ws) in *.
  destruct (Nat.eq_dec k (length ws)) as [Eq|NE].
  - rewrite app_nth2 by (rewrite removelast_length; lia). rewrite removelast_length, La. replace (k - (S (length ws) - 1))%nat with O by lia. cbn [nth].
    assert (Last : last al [] = nth k al []).
    { rewrite Eq. clear - La. destruct (snoc_cases al) as [Z|[l [x Z]]]; [rewrite Z in La; discriminate|]. rewrite Z in La |- *. rewrite app_length in La. cbn in La.
      rewrite last_last, app_nth2 by lia. replace (length ws - length l)%nat with O by lia. reflexivity. }
    rewrite Last.
    assert (Lk : length (nth k al []) = mdp_n m).
    { assert (Hl : length (last al []) = mdp_n m); [|rewrite Last in Hl; exact Hl]. unfold al. rewrite bw_alphas_last. apply fold_fstep. apply W. }
    assert (Bk' : nth k (bw_betas (mdp_n m) (zipwith nmul (vones (mdp_n m)) mask) ws) [] = zipwith nmul (vones (mdp_n m)) mask).
    { rewrite Eq. clear. induction ws as [|w ws IH]; [reflexivity|]. cbn [length bw_betas nth]. exact IH. }
    rewrite Bk'. pose proof (mask_ok m tr s Hs) as Mo. revert Mo. nR. intros Mo. unfold mdp_mask in Mo. fold mask in Mo. rewrite Mo.
    unfold vget at 1. nR. rewrite (nth_zipwith _ _ _ _ 0 0); [|rewrite Lk; exact Hs|unfold mask; rewrite lab_mask_length; exact Hs].
    change (nth s mask 0) with (vget mask s). unfold mask. rewrite lab_mask_get by exact Hs. change (nth s (nth k al []) 0) with (vget (nth k al []) s).
    unfold df. destruct (is_label_01 (mdp_lab m) (last tr EmptyString) s) as [-> | ->]; ring.
  - rewrite app_nth1 by (rewrite removelast_length; lia). f_equal. f_equal.
    destruct (snoc_cases al) as [Z|[l [x Z]]]; [rewrite Z in La; discriminate|]. rewrite Z in La |- *. rewrite app_length in La. cbn in La.
    rewrite removelast_app by discriminate. cbn [removelast]. rewrite app_nil_r. rewrite app_nth1 by lia. reflexivity.
Qed.
Print Assumptions C33_mdp_forward_backward.

(** ** C73 *)
Section Exp.
  Variables (m : mdp R) (set : list (list string * Z)).
  Hypothesis W : wf_mdp m.
  Hypothesis A : alternating_set set.

  Lemma dc_odds j tr : alternating tr -> map (fun oa => letter (mdp_act m) j (snd oa)) (pairs_of tr) = map (letter (mdp_act m) j) (odds tr).
  Proof. intros Al. rewrite <- (pairs_odds tr Al), map_map. reflexivity. Qed.
  Lemma ind_letter j x : ind (String.eqb x (nth j (mdp_act m) EmptyString)) = letter (mdp_act m) j x.
  Proof. unfold ind, letter. rewrite String.eqb_sym. reflexivity. Qed.

  Lemma dDEN_path s j : (s < mdp_n m)%nat ->
    dDEN m set s j = set_expected (mdp_trace_prob m) (mdp_expected_visits m s (nth j (mdp_act m) EmptyString)) set.
  Proof.
    intros Hs. unfold dDEN. rewrite (GA_expected _ _ _ _ _ (fun tr => map (act_mat m) (odds tr)) (fun tr => map (is_label (mdp_lab m)) (removelast (evens tr)))); auto.
    - apply set_expected_ext; intros tr t I.
      + rewrite <- evens_split by exact (A tr t I). reflexivity.
      + intros _. unfold mdp_expected_visits, mdp_expected. rewrite evens_split by exact (A tr t I). f_equal. unfold dc. rewrite dc_odds by exact (A tr t I).
        rewrite map_map. apply map_ext. intros x. rewrite ind_letter. reflexivity.
    - intros tr t I. apply dW_wts; [exact W|exact (A tr t I)].
    - intros tr t I. rewrite !map_length. apply odds_len. exact (A tr t I).
    - intros tr t I. unfold dc. rewrite dc_odds by exact (A tr t I). rewrite !map_length. apply odds_len. exact (A tr t I).
  Qed.
  Lemma dNUM_path s j s' : (s < mdp_n m)%nat -> (s' < mdp_n m)%nat ->
    dNUM m set s j s' = set_expected (mdp_trace_prob m) (mdp_expected_moves m s (nth j (mdp_act m) EmptyString) s') set.
  Proof.
    intros Hs Hs'. unfold dNUM. rewrite (XI_expected _ _ _ _ _ (fun tr => map (act_mat m) (odds tr)) (fun tr => map (is_label (mdp_lab m)) (removelast (evens tr)))); auto.
    - apply set_expected_ext; intros tr t I.
      + rewrite <- evens_split by exact (A tr t I). reflexivity.
      + intros _. unfold mdp_expected_moves, mdp_expected. rewrite evens_split by exact (A tr t I). f_equal. unfold dc. rewrite dc_odds by exact (A tr t I).
        rewrite map_map. apply map_ext. intros x. rewrite ind_letter. reflexivity.
    - intros tr t I. apply dW_wts; [exact W|exact (A tr t I)].
    - intros tr t I. rewrite !map_length. apply odds_len. exact (A tr t I).
    - intros tr t I. unfold dc. rewrite dc_odds by exact (A tr t I). rewrite !map_length. apply odds_len. exact (A tr t I).
  Qed.
End Exp.

(** Probability of moving from s to s' when action [nth j actions] is taken. *)
Definition prob_of (m : mdp R) (s j s' : nat) : R := nth s' (nth j (nth s (mdp_mat m) []) []) 0.

Theorem C73_mdp_round_is_ratio_of_expectations : forall (m m' : mdp R) (p : nat) (set : list (list string * Z)) (ll : R),
  wf_mdp m -> nonneg_mdp m -> alternating_set set -> round_MDP p set m = Ok (m', ll) ->
  let E X := set_expected (mdp_trace_prob m) X set in
  mdp_lab m' = mdp_lab m /\ mdp_act m' = mdp_act m /\ mdp_ini m' = mdp_ini m /\ mdp_name m' = mdp_name m /\ mdp_n m' = mdp_n m /\
  ll = set_ll (mdp_trace_prob m) set /\
  (forall s j s', (s < mdp_n m)%nat -> (j < length (mdp_act m))%nat -> (s' < mdp_n m)%nat ->
    let a := nth j (mdp_act m) EmptyString in
    prob_of m' s j s' = if Req_EM_T (E (mdp_expected_visits m s a)) 0 then prob_of m s j s'
                        else E (mdp_expected_moves m s a s') / E (mdp_expected_visits m s a)).
Proof.
  intros m m' p set ll W N A Er E. destruct (round_MDP_spec m W set N p m' ll Er) as (B1 & B2 & B3 & B4 & B5 & _ & G & L & _).
  repeat (split; [assumption|]). split.
  - rewrite L. apply set_ll_ext. intros tr t I. apply dP_path; [exact W|exact (A tr t I)].
  - intros s j s' Hs Hj Hs' a. change prob_of with (fun m => tget (mdp_mat m)). cbn beta. rewrite G by assumption. unfold est. rewrite (dDEN_path m set W A), (dNUM_path m set W A) by assumption. reflexivity.
Qed.
Print Assumptions C73_mdp_round_is_ratio_of_expectations.

(** ** C36 *)
Definition mdp_ok (m : mdp R) : Prop := wf_mdp m /\ nonneg_mdp m.
Definition same_frame (m m' : mdp R) : Prop :=
  mdp_n m' = mdp_n m /\ mdp_lab m' = mdp_lab m /\ mdp_act m' = mdp_act m /\ mdp_ini m' = mdp_ini m /\ mdp_name m' = mdp_name m.
Lemma round_mdp_ok m set p m' ll : mdp_ok m -> round_MDP p set m = Ok (m', ll) -> pos_times set -> mdp_ok m' /\ same_frame m m'.
Proof.
  intros [W N] E HT. destruct (round_MDP_spec m W set N p m' ll E) as (A & B & C & D & F & G & H & _).
  split; [split|].
  - destruct W as (W1 & W2 & W3 & W4 & W5). unfold wf_mdp. rewrite A, B, C, F. repeat (split; [assumption|]). assumption.
  - apply (d_nonneg' m W set N HT m' F G H).
  - repeat split; auto.
Qed.
(** Total probability of the row of state s and action number j (0 when the
    action is not available in s). *)
Definition row_total (m : mdp R) (s j : nat) : R := rsum (nth j (nth s (mdp_mat m) []) []).
Definition mdp_rows (Q : R -> Prop) (m : mdp R) : Prop :=
  forall s j, (s < mdp_n m)%nat -> (j < length (mdp_act m))%nat -> Q (row_total m s j).

Lemma mdp_row_rule m set p m' ll : mdp_ok m -> round_MDP p set m = Ok (m', ll) -> pos_times set ->
  forall s j, (s < mdp_n m)%nat -> (j < length (mdp_act m))%nat ->
    row_total m' s j = row_total m s j \/ (row_total m' s j = 1 /\ row_total m s j <> 0).
Proof.
  intros [W N] E HT s j Hs Hj. destruct (round_MDP_spec m W set N p m' ll E) as (A & B & C & D & F & G & H & _).
  pose proof (d_row_sum' m W set m' F G H s j Hs Hj) as R0. change (rsum (row m' s j)) with (row_total m' s j) in R0. change (rsum (row m s j)) with (row_total m s j) in R0.
  destruct (Req_EM_T (dDEN m set s j) 0) as [Z|NZ]; [left; exact R0|]. right. split; [exact R0|]. intros Z0. apply NZ.
  rewrite dDEN_sum by exact Hs. apply Sum_zero_ext. intros s' Hs'. apply dNUM_zero; [exact W|exact Hj|].
  change (rsum (row m s j) = 0) in Z0. rewrite (row_Sum m m eq_refl m s j (proj1 W) Hs Hj) in Z0. 
  apply (Sum_eq0 (mdp_n m) (tget (mdp_mat m) s j)); auto. intros i Hi. apply tget_nonneg; exact N.
Qed.

Theorem C36_mdp_learning_stochastic : forall (m m' : mdp R) (p max_it c : nat) (set : list (list string * Z)) (eps : R) ll stopped,
  wf_mdp m -> nonneg_mdp m -> mdp_rows (fun x => x = 0 \/ x = 1) m -> pos_times set ->
  bw_loop (round_MDP p set) eps max_it None 0 m = Ok (m', c, ll, stopped) ->
  wf_mdp m' /\ nonneg_mdp m' /\ same_frame m m' /\ mdp_rows (fun x => x = 0 \/ x = 1) m' /\
  (forall s j, (s < mdp_n m)%nat -> (j < length (mdp_act m))%nat -> row_total m' s j = row_total m s j).
Proof.
  intros m m' p mx c set eps ll st W N S HT E.
  apply (bw_loop_inv _ _ (fun x => mdp_ok x /\ same_frame m x /\
    (forall s j, (s < mdp_n m)%nat -> (j < length (mdp_act m))%nat -> row_total x s j = row_total m s j))) in E.
  - destruct E as [[W' N'] [F' R']]. split; [exact W'|]. split; [exact N'|]. split; [exact F'|]. split; [|exact R'].
    destruct F' as (F1 & F2 & F3 & _). intros s j Hs Hj. rewrite F1 in Hs. rewrite F3 in Hj. rewrite R' by assumption. apply S; assumption.
  - intros x x' l [O [F Rx]] Er. destruct (round_mdp_ok x set p x' l O Er HT) as [O' F'].
    destruct F as (F1 & F2 & F3 & F4 & F5), F' as (G1 & G2 & G3 & G4 & G5).
    split; [exact O'|]. split; [repeat split; congruence|]. intros s j Hs Hj.
    assert (Hs1 : (s < mdp_n x)%nat) by (rewrite F1; exact Hs). assert (Hj1 : (j < length (mdp_act x))%nat) by (rewrite F3; exact Hj).
    destruct (mdp_row_rule x set p x' l O Er HT s j Hs1 Hj1) as [E1|[E1 E2]]; [rewrite E1; apply Rx; assumption|].
    rewrite Rx in E2 by assumption. destruct (S s j Hs Hj) as [Z|Z]; [contradiction|]. congruence.
  - split; [split; assumption|]. split; [repeat split|]. reflexivity.
Qed.
Print Assumptions C36_mdp_learning_stochastic.

(** State-action pairs with no expected use keep their row. *)
Theorem C36_mdp_untried_round : forall (m m' : mdp R) (p s j : nat) (set : list (list string * Z)) (ll : R),
  wf_mdp m -> nonneg_mdp m -> alternating_set set -> round_MDP p set m = Ok (m', ll) -> (s < mdp_n m)%nat -> (j < length (mdp_act m))%nat ->
  (forall tr t, In (tr, t) set -> mdp_expected_visits m s (nth j (mdp_act m) EmptyString) tr = 0) ->
  forall s', (s' < mdp_n m)%nat -> prob_of m' s j s' = prob_of m s j s'.
Proof.
  intros m m' p s j set ll W N A Er Hs Hj Hv s' Hs'.
  destruct (C73_mdp_round_is_ratio_of_expectations m m' p set ll W N A Er) as (_ & _ & _ & _ & _ & _ & G). rewrite G by assumption.
  replace (set_expected _ (mdp_expected_visits _ _ _) _) with 0; [destruct (Req_EM_T 0 0); congruence|].
  symmetry. unfold set_expected. apply sumL_zero_ext. intros [tr t] I. cbn [fst snd]. rewrite (Hv tr t I). destruct (Rlt_dec _ _); [|reflexivity]. unfold Rdiv. ring.
Qed.
Print Assumptions C36_mdp_untried_round.

(** An action which is never used in the training set keeps all its rows. *)
Lemma expected_no_reward n pi As Bs g : (forall h, In h g -> forall i j, h i j = 0) -> expected n pi As Bs g = 0.
Proof.
  intros H. unfold expected. apply sumL_zero_ext. intros x _. replace (path_reward g x) with 0; [ring|]. symmetry.
  revert x. induction g as [|h g IH]; intros [|s x]; cbn; auto. destruct x as [|s' x]; [reflexivity|].
  rewrite (H h (or_introl eq_refl)), (IH (fun k I => H k (or_intror I)) (s' :: x)). ring.
Qed.
Theorem C36_mdp_unused_action : forall (m m' : mdp R) (p max_it c j : nat) (set : list (list string * Z)) (eps : R) ll stopped,
  wf_mdp m -> nonneg_mdp m -> pos_times set -> alternating_set set -> (j < length (mdp_act m))%nat ->
  (forall tr t, In (tr, t) set -> ~ In (nth j (mdp_act m) EmptyString) (odds tr)) ->
  bw_loop (round_MDP p set) eps max_it None 0 m = Ok (m', c, ll, stopped) ->
  forall s s', (s < mdp_n m)%nat -> (s' < mdp_n m)%nat -> prob_of m' s j s' = prob_of m s j s'.
Proof.
  intros m m' p mx c j set eps ll st W N HT A Hj Hu E.
  apply (bw_loop_inv _ _ (fun x => mdp_ok x /\ same_frame m x /\
    (forall s s', (s < mdp_n m)%nat -> (s' < mdp_n m)%nat -> prob_of x s j s' = prob_of m s j s'))) in E.
  - apply E.
  - intros x x' l [O [F Rx]] Er. destruct (round_mdp_ok x set p x' l O Er HT) as [O' F'].
    destruct F as (F1 & F2 & F3 & F4 & F5), F' as (G1 & G2 & G3 & G4 & G5).
    split; [exact O'|]. split; [repeat split; congruence|]. intros s s' Hs Hs'. rewrite <- Rx by assumption.
    apply (C36_mdp_untried_round x x' p s j set l); try apply O; try assumption; try (rewrite F1; assumption); try (rewrite F3; assumption).
    intros tr t I. unfold mdp_expected_visits, mdp_expected. apply expected_no_reward. intros h Ih i k. apply in_map_iff in Ih. destruct Ih as [a [<- Ia]].
    unfold on_leave, ind. destruct (String.eqb_spec a (nth j (mdp_act x) EmptyString)) as [->|]; [|destruct (Nat.eqb i s); reflexivity].
    rewrite F3 in Ia. destruct (Hu tr t I Ia).
  - split; [split; assumption|]. split; [repeat split|]. reflexivity.
Qed.
Print Assumptions C36_mdp_unused_action.

(** ** C37 *)
Theorem C37_mdp_zero_stays_zero : forall (m m' : mdp R) (p max_it c : nat) (set : list (list string * Z)) (eps : R) ll stopped,
  wf_mdp m -> nonneg_mdp m -> pos_times set ->
  bw_loop (round_MDP p set) eps max_it None 0 m = Ok (m', c, ll, stopped) ->
  forall s j s', (s < mdp_n m)%nat -> (j < length (mdp_act m))%nat -> (s' < mdp_n m)%nat -> prob_of m s j s' = 0 -> prob_of m' s j s' = 0.
Proof.
  intros m m' p mx c set eps ll st W N HT E.
  apply (bw_loop_inv _ _ (fun x => (mdp_ok x /\ same_frame m x) /\
    forall s j s', (s < mdp_n m)%nat -> (j < length (mdp_act m))%nat -> (s' < mdp_n m)%nat -> prob_of m s j s' = 0 -> prob_of x s j s' = 0)) in E.
  - apply E.
  - intros x x' l [[O F] Z1] Er. destruct (round_mdp_ok x set p x' l O Er HT) as [O' F'].
    destruct F as (F1 & F2 & F3 & F4 & F5), F' as (G1 & G2 & G3 & G4 & G5).
    split; [split; [exact O'|repeat split; congruence]|]. intros s j s' Hs Hj Hs' Z. destruct O as [Wx Nx].
    destruct (round_MDP_spec x Wx set Nx p x' l Er) as (_ & _ & _ & _ & _ & _ & H & _).
    apply (d_zero' x Wx set x' H s j s'); try (rewrite F1; assumption); try (rewrite F3; assumption). apply Z1; assumption.
  - split; [split; [split; assumption|repeat split]|auto].
Qed.
Print Assumptions C37_mdp_zero_stays_zero.

(** ** C40 *)
Theorem C40_mdp_round_likelihood : forall (m m' : mdp R) (p : nat) (set : list (list string * Z)) (ll : R),
  wf_mdp m -> nonneg_mdp m -> mdp_rows (fun x => x <= 1) m -> pos_times set -> alternating_set set -> round_MDP p set m = Ok (m', ll) ->
  ll = set_ll (mdp_trace_prob m) set /\
  set_ll (mdp_trace_prob m) set <= set_ll (mdp_trace_prob m') set /\
  (forall tr t, In (tr, t) set -> (0 < mdp_trace_prob m tr <-> 0 < mdp_trace_prob m' tr)).
Proof.
  intros m m' p set ll W N S HT A E.
  destruct (round_MDP_spec m W set N p m' ll E) as (A1 & A2 & A3 & A4 & A5 & G & H & L & _).
  destruct (round_mdp_ok m set p m' ll (conj W N) E HT) as [[W' N'] _].
  destruct (d_em_mono m W set N HT m' A2 A1 A5 G H S) as [M1 M2].
  assert (P' : forall tr, alternating tr -> Pof (mdp_n m) (vget (mdp_ini m)) (dW m') (df m) tr = mdp_trace_prob m' tr).
  { intros tr Al. rewrite <- dP_path by assumption. rewrite A5, A3. unfold Pof, df. rewrite A1. reflexivity. }
  rewrite (set_ll_ext _ _ set (fun tr t I => dP_path m tr W (A tr t I))) in L, M1.
  rewrite (set_ll_ext _ _ set (fun tr t I => P' tr (A tr t I))) in M1.
  split; [exact L|]. split; [exact M1|]. intros tr t It. rewrite <- (dP_path m) by (auto; exact (A tr t It)). rewrite <- P' by exact (A tr t It). exact (M2 tr t It).
Qed.
Print Assumptions C40_mdp_round_likelihood.

Lemma mdp_round_sub m set p m' ll : mdp_ok m -> mdp_rows (fun x => x <= 1) m -> pos_times set -> round_MDP p set m = Ok (m', ll) -> mdp_ok m' /\ mdp_rows (fun x => x <= 1) m'.
Proof.
  intros O S HT E. destruct (round_mdp_ok m set p m' ll O E HT) as [O' (F1 & _ & F3 & _)]. split; [exact O'|].
  intros s j Hs Hj. rewrite F1 in Hs. rewrite F3 in Hj. destruct (mdp_row_rule m set p m' ll O E HT s j Hs Hj) as [-> | [-> _]]; [apply S; assumption|lra].
Qed.

Theorem C40_mdp_fit_improves_logLikelihood : forall (m m' : mdp R) (p max_it c : nat) (s : tset (list string)) (eps : R) ll stopped,
  wf_mdp m -> nonneg_mdp m -> mdp_rows (fun x => x = 0 \/ x = 1) m -> usable s -> seqs s <> [] -> (forall tr, In tr (seqs s) -> alternating tr) ->
  bw_loop (round_MDP p (weighted s)) eps max_it None 0 m = Ok (m', c, ll, stopped) ->
  exists v v', mdp_logLikelihood m s = Ok v /\ mdp_logLikelihood m' s = Ok v' /\ v <= v'.
Proof.
  intros m m' p mx c s eps ll st W N S U NE A E. pose proof (weighted_pos s U) as HT.
  assert (A' : alternating_set (weighted s)) by (intros tr t I; apply A; apply in_combine_l in I; exact I).
  destruct (C36_mdp_learning_stochastic m m' p mx c (weighted s) eps ll st W N S HT E) as [W' [N' [_ [S' _]]]].
  assert (M : set_ll (mdp_trace_prob m) (weighted s) <= set_ll (mdp_trace_prob m') (weighted s)).
  { apply (bw_loop_mono _ _ (fun x => mdp_ok x /\ mdp_rows (fun v => v <= 1) x) (fun x => set_ll (mdp_trace_prob x) (weighted s))) in E.
    - apply E.
    - intros x x' l [[Wx Nx] Sx] Er. split; [apply (mdp_round_sub x (weighted s) p x' l); auto; split; assumption|].
      apply (C40_mdp_round_likelihood x x' p (weighted s) l Wx Nx Sx HT A' Er).
    - split; [split; assumption|]. intros i j Hi Hj. destruct (S i j Hi Hj) as [-> | ->]; lra. }
  exists (avg_ll (mdp_trace_prob m) (weighted s)), (avg_ll (mdp_trace_prob m') (weighted s)).
  split; [apply C27_mdp_logLikelihood; assumption|]. split; [apply C27_mdp_logLikelihood; assumption|]. apply avg_le; assumption.
Qed.
Print Assumptions C40_mdp_fit_improves_logLikelihood.

(** ** C42 *)
Lemma act_mat_sub (m : mdp R) a s : wf_mdp m -> nonneg_mdp m -> mdp_rows (fun x => x <= 1) m -> (s < mdp_n m)%nat -> Sum (mdp_n m) (act_mat m a s) <= 1.
Proof.
  intros W N S Hs. destruct (in_dec String.string_dec a (mdp_act m)) as [K|K].
  - apply (In_nth _ _ EmptyString) in K. destruct K as [j [Hj <-]].
    rewrite (Sum_ext _ _ (tget (mdp_mat m) s j)) by (intros; apply act_nth; [apply W|exact Hj]).
    rewrite <- (row_Sum m m eq_refl m s j (proj1 W) Hs Hj). apply (S s j Hs Hj).
  - rewrite Sum_zero_ext; [lra|]. intros; apply act_out; exact K.
Qed.
Lemma mdp_prob_01 (m : mdp R) tr : wf_mdp m -> nonneg_mdp m -> mdp_rows (fun x => x <= 1) m -> rsum (mdp_ini m) <= 1 -> alternating tr -> 0 <= mdp_trace_prob m tr <= 1.
Proof.
  intros W N S Si A. split; [apply mdp_trace_prob_nonneg; [exact N|apply W|exact A]|].
  unfold mdp_trace_prob. apply trace_prob_le1.
  - intros o s Hs. destruct (is_label_01 (mdp_lab m) o s) as [-> | ->]; lra.
  - apply Forall_forall. intros M I. apply in_map_iff in I. destruct I as [a [<- _]]. intros i j _ _. apply act_mat_nonneg; exact N.
  - apply Forall_forall. intros M I. apply in_map_iff in I. destruct I as [a [<- _]]. intros s Hs. apply act_mat_sub; assumption.
  - intros s Hs. apply vecR_nonneg. apply W.
  - apply vec_sub; [apply W|exact Si].
  - rewrite map_length. apply (pairs_evens tr A).
Qed.
Lemma round_mdp_succeeds m set p : mdp_ok m -> alternating_set set ->
  (exists tr t, In (tr, t) set /\ 0 < mdp_trace_prob m tr) ->
  ((1 < p)%nat \/ forall tr t, In (tr, t) set -> 0 < mdp_trace_prob m tr) ->
  exists m' ll, round_MDP p set m = Ok (m', ll).
Proof.
  intros [W N] A Ex Hp. unfold round_MDP, update_MDP.
  rewrite (unwrap_gen (mdp_n m) set (vget (mdp_ini m)) (dW m) (df m) _ (dmk m) (d_work m W set)).
  - cbn [bind]. destruct (goods (processWork_MDP m) set) eqn:G; [|eauto]. exfalso. revert G.
    apply (goods_ne (mdp_n m) set (vget (mdp_ini m)) (dW m) (df m) _ (dmk m) (d_work m W set)).
    destruct Ex as [tr [t [I Q]]]. exists tr, t. rewrite dP_path by (auto; exact (A tr t I)). auto.
  - destruct Hp as [Hp|Hp]; [left; exact Hp|right]. intros tr t I. rewrite dP_path by (auto; exact (A tr t I)). eauto.
Qed.

Theorem C42_mdp_terminates : forall (m : mdp R) (p : nat) (set : list (list string * Z)) (eps : R) (N : nat),
  wf_mdp m -> nonneg_mdp m -> mdp_rows (fun x => x <= 1) m -> rsum (mdp_ini m) <= 1 -> pos_times set -> alternating_set set -> 0 < eps ->
  (exists tr t, In (tr, t) set /\ 0 < mdp_trace_prob m tr) ->
  ((1 < p)%nat \/ forall tr t, In (tr, t) set -> 0 < mdp_trace_prob m tr) ->
  - set_ll (mdp_trace_prob m) set < INR N * eps ->
  exists m' c ll, (c <= S N)%nat /\
    forall max_it, (S N <= max_it)%nat -> bw_loop (round_MDP p set) eps max_it None 0 m = Ok (m', c, Some ll, true).
Proof.
  intros m p set eps N W Nn S Si HT A He Hex Hp HN.
  destruct (bw_terminates (round_MDP p set) eps
     (fun x => (mdp_ok x /\ mdp_rows (fun v => v <= 1) x /\ rsum (mdp_ini x) <= 1) /\
               (exists tr t, In (tr, t) set /\ 0 < mdp_trace_prob x tr) /\
               ((1 < p)%nat \/ forall tr t, In (tr, t) set -> 0 < mdp_trace_prob x tr))
     (fun x => set_ll (mdp_trace_prob x) set) He) with (N := N) (m := m) as [m' [c [ll [E Hc]]]].
  - intros x [[[Wx Nx] [Sx Six]] [Hex' Hp']]. split.
    + apply set_ll_nonpos; [|exact HT]. intros tr t I. apply mdp_prob_01; auto. exact (A tr t I).
    + destruct (round_mdp_succeeds x set p) as [x' [l Er]]; auto; [split; assumption|].
      destruct (C40_mdp_round_likelihood x x' p set l Wx Nx Sx HT A Er) as [-> [_ Ps]]. exists x'. split; [exact Er|].
      destruct (mdp_round_sub x set p x' _ (conj Wx Nx) Sx HT Er) as [O' S'].
      destruct (round_mdp_ok x set p x' _ (conj Wx Nx) Er HT) as [_ (_ & _ & _ & F & _)].
      split; [split; [exact O'|]; split; [exact S'|rewrite F; exact Six]|]. split.
      * destruct Hex' as [tr [t [I P]]]. exists tr, t. split; [exact I|]. apply (Ps tr t I). exact P.
      * destruct Hp' as [L|L]; [left; exact L|right]. intros tr t I. apply (Ps tr t I). exact (L tr t I).
  - split; [split; [split; assumption|split; assumption]|split; assumption].
  - exact HN.
  - exists m', c, ll. split; [exact Hc|]. intros mx Hmx. replace mx with (Datatypes.S N + (mx - Datatypes.S N))%nat by lia. apply bw_loop_more. exact E.
Qed.
Print Assumptions C42_mdp_terminates.

(** Example: two states, two actions, the second not available in state 1. *)
Definition ex_mdp : mdp R := mkMDP [[[1/2; 1/2]; [0; 1]]; [[1; 0]; [0; 0]]] ["x"; "y"]%string ["a"; "b"]%string [1; 0] "ex"%string.
Definition ex_dset : tset (list string) := mkset [["x"; "a"; "y"]; ["x"; "b"; "y"; "a"; "x"]]%string [2; 1]%Z (Some 1%Z).
Example C36_C37_C40_C42_instance : wf_mdp ex_mdp /\ nonneg_mdp ex_mdp /\ mdp_rows (fun x => x = 0 \/ x = 1) ex_mdp /\ mdp_rows (fun x => x <= 1) ex_mdp /\
  rsum (mdp_ini ex_mdp) <= 1 /\ usable ex_dset /\ alternating_set (weighted ex_dset) /\
  (forall tr t, In (tr, t) (weighted ex_dset) -> 0 < mdp_trace_prob ex_mdp tr) /\
  (exists m' ll, round_MDP 1 (weighted ex_dset) ex_mdp = Ok (m', ll)) /\ prob_of ex_mdp 0 1 0 = 0.
Proof.
  assert (W : wf_mdp ex_mdp).
  { unfold wf_mdp, mdp_n; cbn. repeat split; auto.
    - destruct H as [<-|[<-|[]]]; reflexivity.
    - destruct H as [<-|[<-|[]]]; intros r [<-|[<-|[]]]; reflexivity.
    - constructor; [intros [H|[]]; discriminate|]. constructor; [intros []|constructor].
    - intros v [<-|[<-|[]]]; lra. }
  assert (N : nonneg_mdp ex_mdp).
  { intros ra [<-|[<-|[]]] r [<-|[<-|[]]] v [<-|[<-|[]]]; lra. }
  assert (S0 : mdp_rows (fun x => x = 0 \/ x = 1) ex_mdp).
  { intros s j Hs Hj. unfold mdp_n in Hs. cbn in Hs, Hj. destruct s as [|[|s]]; [| |lia]; (destruct j as [|[|j]]; [| |lia]); unfold row_total; cbn; lra. }
  assert (P : forall tr t, In (tr, t) (weighted ex_dset) -> 0 < mdp_trace_prob ex_mdp tr).
  { intros tr t [E|[E|[]]]; inversion E; subst; unfold mdp_trace_prob, trace_prob, sumL, act_mat, is_label, Sum, sumL; cbn; lra. }
  assert (A : alternating_set (weighted ex_dset)).
  { intros tr t [E|[E|[]]]; inversion E; subst; reflexivity. }
  split; [exact W|]. split; [exact N|]. split; [exact S0|]. split.
  { intros s j Hs Hj. destruct (S0 s j Hs Hj) as [-> | ->]; lra. }
  split; [cbn; lra|]. split.
  { split; [reflexivity|]. split; [intros t [<-|[<-|[]]]; lia|]. intros [H|[H|[]]]; discriminate. }
  split; [exact A|]. split; [exact P|]. split; [|reflexivity].
  apply round_mdp_succeeds; [split; assumption|exact A| |right; exact P].
  exists ["x"; "a"; "y"]%string, 2%Z. split; [left; reflexivity|]. apply (P _ 2%Z). left; reflexivity.
Qed.
