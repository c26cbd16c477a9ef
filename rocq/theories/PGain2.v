(** C145 for CTMCs and GoHMMs. *)
From Coq Require Import String ZArith Bool Reals List Lia Lra Permutation.
From Verif Require Import Num Py SNum SPath LSum MSet SSet LSet MModels MLik MBW LFB LEM SBW LBW LBWSet LBWMC SLik LPath LLik LLik2 LBWLoop LBWPath SExp LEMGen LBWMDP LBWCT LBWGO PLik LFit PBWMC PBWCT PBWCTU PBWGO SGain LGain PGain.
Import ListNotations.
Local Open Scope R_scope.

(** ** CTMC, traces with dwell times *)
Lemma ct_gain m fixed set p m' ll : ct_ok m -> timed_set set -> pos_times set -> round_CTMC_timed p fixed set m = Ok (m', ll) ->
  set_ll (ct_density m) set + ct_moved set m m' <= set_ll (ct_density m') set.
Proof.
  intros [W N] A HT Er.
  destruct (update_CTMC_spec m fixed set (tW m) (tf m) tc _ (t_work m W fixed set) (t_P_nonneg m W set N) p m' ll Er) as (B1 & B2 & B3 & B4 & B5 & G & L & _).
  destruct (t_em_gain m W fixed set N HT (timed_dw set A) m' B1 B4 B5 G) as [M1 M2].
  assert (P' : forall tr t, In (tr, t) set -> Pof (ct_n m) (vget (ct_ini m)) (tW m') (tf m) tr = ct_density m' tr).
  { intros tr t I. rewrite <- tP_path by apply (A tr t I). rewrite B4, B2. unfold Pof, tf. rewrite B1. reflexivity. }
  assert (P0 : forall tr t, In (tr, t) set -> tP m tr = ct_density m tr) by (intros tr t I; apply tP_path; apply (A tr t I)).
  rewrite (set_ll_ext _ _ set P0), (set_ll_ext _ _ set P') in M1.
  replace (ct_moved set m m') with (ct_change m set m'); [exact M1|].
  unfold ct_change, ct_moved. apply Sum_ext. intros s Hs. rewrite (tDEN_path m set A) by exact Hs. reflexivity.
Qed.
Theorem C145_ctmc_timed_gain : forall (m m' : ctmc R) (fixed : list (list bool)) (p : nat) set (ll : R),
  wf_ctmc m -> nonneg_mat (ct_mat m) -> timed_set set -> pos_times set -> round_CTMC_timed p fixed set m = Ok (m', ll) ->
  set_ll (ct_density m) set + ct_moved set m m' <= set_ll (ct_density m') set.
Proof. intros m m' fixed p set ll W N A HT E. apply (ct_gain m fixed set p m' ll); auto. split; assumption. Qed.
Print Assumptions C145_ctmc_timed_gain.

(** Fixed rates must belong to states the model spends time in, see C45. *)
Theorem C145_ctmc_timed_strict : forall (m m' : ctmc R) (fixed : list (list bool)) (p : nat) set (ll : R),
  wf_ctmc m -> nonneg_mat (ct_mat m) -> timed_set set -> pos_times set -> round_CTMC_timed p fixed set m = Ok (m', ll) ->
  (forall s s', (s < ct_n m)%nat -> (s' < ct_n m)%nat -> is_fixed fixed s s' = true -> rate m s s' <> 0 ->
     set_expected (ct_density m) (ct_expected_dwell m s) set <> 0) ->
  m' = m \/ set_ll (ct_density m) set < set_ll (ct_density m') set.
Proof.
  intros m m' fixed p set ll W N A HT E Fx. pose proof (C145_ctmc_timed_gain m m' fixed p set ll W N A HT E) as G.
  destruct (C73_ctmc_timed_round_is_ratio_of_expectations m m' fixed p set ll W N A E) as (B1 & B2 & B3 & B4 & Sq & _ & K1 & K2).
  destruct (round_ct_ok m fixed set p m' ll (conj W N) A HT E) as [[W' N'] _].
  assert (Vn : forall s, (s < ct_n m)%nat -> 0 <= set_expected (ct_density m) (ct_expected_dwell m s) set).
  { intros s Hs. rewrite <- (tDEN_path m set A) by exact Hs. apply (tDEN_nonneg m W set N HT (timed_dw set A)). exact Hs. }
  destruct (Rle_dec (ct_moved set m m') 0) as [Z|P]; [left|right; lra].
  assert (Ma : ct_mat m' = ct_mat m).
  { apply (mat_ext (ct_n m)); [exact Sq|apply W|]. intros s s' Hs Hs'.
    assert (Z' : set_expected (ct_density m) (ct_expected_dwell m s) set * moved (ct_n m) (matR (ct_mat m) s) (matR (ct_mat m') s) = 0).
    { apply (Sum_nonneg_zero (ct_n m) (fun s => set_expected (ct_density m) (ct_expected_dwell m s) set * moved (ct_n m) (matR (ct_mat m) s) (matR (ct_mat m') s))); auto.
      intros i Hi. apply Rmult_le_pos; [apply Vn; assumption|apply moved_nonneg]. }
    apply Req_le in Z'. apply visits_moved_zero in Z'; [|apply Vn; assumption]. destruct Z' as [V0|V0].
    - change (rate m' s s' = rate m s s'). destruct (is_fixed fixed s s') eqn:F.
      + rewrite K2 by assumption. destruct (Req_EM_T _ 0); [|contradiction]. destruct (Req_dec (rate m s s') 0) as [-> |Nz]; [ring|].
        exfalso. exact (Fx s s' Hs Hs' F Nz V0).
      + rewrite K1 by assumption. destruct (Req_EM_T _ 0); [reflexivity|contradiction].
    - apply (moved_zero (ct_n m) (matR (ct_mat m) s) (matR (ct_mat m') s)); auto; intros j Hj; apply mget_nonneg; assumption. }
  destruct m, m'. cbn in *. subst. reflexivity.
Qed.
Print Assumptions C145_ctmc_timed_strict.

(** Without this a round may change the model for nothing. *)
Theorem C145_ctmc_timed_strict_refuted : exists (m m' : ctmc R) (fixed : list (list bool)) set (ll : R),
  wf_ctmc m /\ nonneg_mat (ct_mat m) /\ timed_set set /\ pos_times set /\ round_CTMC_timed 1 fixed set m = Ok (m', ll) /\
  m' <> m /\ set_ll (ct_density m) set = set_ll (ct_density m') set.
Proof.
  destruct ex_fix_ok as (W & N & A & HT & P).
  destruct (round_ct_succeeds ex_fix ex_mask ex_fset 1) as [m' [ll Er]]; auto; [split; assumption| |].
  { exists (["x"; "x"]%string, [1]), 1%Z. split; [left; reflexivity|]. apply (P _ 1%Z). left; reflexivity. }
  exists ex_fix, m', ex_mask, ex_fset, ll. repeat (split; [assumption|]).
  destruct (C73_ctmc_timed_round_is_ratio_of_expectations ex_fix m' ex_mask 1 ex_fset ll W N A Er) as (B1 & B2 & _ & B4 & Sq & _ & K1 & K2).
  assert (E1 : set_expected (ct_density ex_fix) (ct_expected_dwell ex_fix 1) ex_fset = 0).
  { unfold set_expected, ex_fset. cbn [map sumL fst snd]. unfold sumL, ct_expected_dwell, ct_expected, expected, sumL. cbn.
    destruct (Rlt_dec _ _); unfold Rdiv; ring. }
  assert (D : ct_density ex_fix (["x"; "x"]%string, [1]) = exp (- ((1 + (0 + 0)) * 1))).
  { unfold ct_density, trace_prob, sumL, jump_density, is_label, exit_rate, rsum; cbn. ring. }
  assert (Dp := exp_pos (- ((1 + (0 + 0)) * 1))). rewrite <- D in Dp.
  assert (E0 : set_expected (ct_density ex_fix) (ct_expected_dwell ex_fix 0) ex_fset = 1).
  { unfold set_expected, ex_fset, sumL. cbn [map rsum fold_right fst snd]. destruct (Rlt_dec _ _) as [_|Q]; [|contradiction].
    replace (ct_expected_dwell ex_fix 0 (["x"; "x"]%string, [1])) with (ct_density ex_fix (["x"; "x"]%string, [1])); [field; lra|].
    rewrite D. unfold ct_expected_dwell, ct_expected, expected, jump_density, exit_rate, sumL, is_label, rsum; cbn. ring. }
  assert (M0 : forall s', s' = 0%nat \/ s' = 1%nat -> rate m' 0 s' = rate ex_fix 0 s').
  { intros s' Hs'. rewrite K1; [|cbn; lia|cbn; lia|destruct Hs' as [-> | ->]; reflexivity]. rewrite E0. destruct (Req_EM_T 1 0); [lra|].
    destruct Hs' as [-> | ->].
    - replace (set_expected (ct_density ex_fix) (ct_expected_moves ex_fix 0 0) ex_fset) with 1; [unfold rate, matR; cbn; lra|].
      unfold set_expected, ex_fset, sumL. cbn [map rsum fold_right fst snd]. destruct (Rlt_dec _ _) as [_|Q]; [|contradiction].
      replace (ct_expected_moves ex_fix 0 0 (["x"; "x"]%string, [1])) with (ct_density ex_fix (["x"; "x"]%string, [1])); [field; lra|].
      rewrite D. unfold ct_expected_moves, ct_expected, expected, jump_density, exit_rate, sumL, is_label, rsum; cbn. ring.
    - replace (set_expected (ct_density ex_fix) (ct_expected_moves ex_fix 0 1) ex_fset) with 0; [unfold rate, matR; cbn; lra|].
      symmetry. unfold set_expected, ex_fset, sumL. cbn [map rsum fold_right fst snd]. destruct (Rlt_dec _ _) as [_|Q]; [|contradiction].
      replace (ct_expected_moves ex_fix 0 1 (["x"; "x"]%string, [1])) with 0; [unfold Rdiv; ring|].
      unfold ct_expected_moves, ct_expected, expected, jump_density, exit_rate, sumL, is_label, rsum; cbn. ring. }
  split.
  - intros Z. assert (Q : rate m' 1 0 = 2 * rate ex_fix 1 0).
    { rewrite (K2 1%nat 0%nat) by (cbn; auto; lia). rewrite E1. destruct (Req_EM_T 0 0); [reflexivity|congruence]. }
    rewrite Z in Q. unfold rate, matR in Q. cbn in Q. lra.
  - unfold set_ll, ex_fset, sumL. cbn [map rsum fold_right fst snd].
    replace (ct_density m' (["x"; "x"]%string, [1])) with (ct_density ex_fix (["x"; "x"]%string, [1])); [reflexivity|]. rewrite D.
    assert (n2 : ct_n m' = 2%nat) by exact B4. destruct Sq as [L1 R1].
    destruct m' as [mat lab ini nm]. cbn [ct_mat ct_lab ct_ini] in *. unfold ct_n in n2, L1, R1. cbn [ct_mat] in n2, L1, R1. subst lab ini.
    destruct mat as [|r0 [|r1 [|]]]; try discriminate n2. assert (l0 : length r0 = 2%nat) by (apply R1; left; reflexivity).
    destruct r0 as [|a [|b [|]]]; try discriminate l0.
    pose proof (M0 0%nat (or_introl eq_refl)) as Ha. pose proof (M0 1%nat (or_intror eq_refl)) as Hb. unfold rate, matR in Ha, Hb. cbn in Ha, Hb. subst a b.
    unfold ct_density, trace_prob, sumL, jump_density, is_label, exit_rate, rsum, ct_n; cbn. ring.
Qed.
Print Assumptions C145_ctmc_timed_strict_refuted.

Theorem C145_ctmc_timed_stops : forall (m m' : ctmc R) (fixed : list (list bool)) (p max_it c : nat) set (eps : R) ll,
  wf_ctmc m -> nonneg_mat (ct_mat m) -> timed_set set -> pos_times set ->
  bw_loop (round_CTMC_timed p fixed set) eps max_it None 0 m = Ok (m', c, ll, true) ->
  exists k t m1 m2 l1 l2, rounds (round_CTMC_timed p fixed set) (ct_moved set) k m m1 t /\
    round_CTMC_timed p fixed set m1 = Ok (m2, l1) /\ round_CTMC_timed p fixed set m2 = Ok (m', l2) /\ c = (k + 2)%nat /\ ct_moved set m1 m2 < eps.
Proof.
  intros m m' fixed p mx c set eps ll W N A HT E.
  apply (bw_stops (round_CTMC_timed p fixed set) eps (ct_moved set) ct_ok (fun x => set_ll (ct_density x) set)) with (fuel := mx) (ll := ll); auto.
  - intros x x' l [Wx Nx] Ex. split; [apply (round_ct_ok x fixed set p x' l (conj Wx Nx) A HT Ex)|].
    split; [apply (C41_ctmc_timed_round_likelihood x x' fixed p set l Wx Nx A HT Ex)|apply (ct_gain x fixed set p x' l (conj Wx Nx) A HT Ex)].
  - split; assumption.
Qed.
Print Assumptions C145_ctmc_timed_stops.

Theorem C145_ctmc_timed_total : forall (m m' : ctmc R) (fixed : list (list bool)) (p k : nat) set (c : R),
  wf_ctmc m -> nonneg_mat (ct_mat m) -> timed_set set -> pos_times set -> rounds (round_CTMC_timed p fixed set) (ct_moved set) k m m' c ->
  c <= set_ll (ct_density m') set - set_ll (ct_density m) set.
Proof.
  intros m m' fixed p k set c W N A HT H.
  destruct (rounds_gain (round_CTMC_timed p fixed set) (ct_moved set) ct_ok (fun x => set_ll (ct_density x) set)) with (2 := H) as [_ G]; [|split; assumption|exact G].
  intros x x' l Ox Ex. split; [apply (round_ct_ok x fixed set p x' l Ox A HT Ex)|apply (ct_gain x fixed set p x' l Ox A HT Ex)].
Qed.
Print Assumptions C145_ctmc_timed_total.

(** ** CTMC, traces without dwell times: a round is a round of the jump chain. *)
Theorem C145_ctmc_untimed_gain : forall (m m' : ctmc R) (fixed : list (list bool)) (p : nat) set (ll : R),
  wf_ctmc m -> nonneg_mat (ct_mat m) -> live m -> no_fixed fixed -> pos_times set -> round_CTMC_untimed p fixed set m = Ok (m', ll) ->
  let P x := mc_trace_prob_move (jump_chain x) in
  set_ll (P m) set + mc_moved set (jump_chain m) (jump_chain m') <= set_ll (P m') set /\
  (jump_chain m' = jump_chain m \/ set_ll (P m) set < set_ll (P m') set).
Proof.
  intros m m' fixed p set ll W N Lv NF HT E P.
  destruct (round_untimed m fixed p set m' ll (conj W N) Lv NF HT E) as (Er & _).
  assert (Wj : wf_mc (jump_chain m)) by (apply jc_wf; exact W).
  assert (Sj : substochastic (mc_mat (jump_chain m))) by (split; [apply jc_nonneg; exact N|intros r I; rewrite (jc_rows m W Lv r I); lra]).
  split; [apply (C145_mc_gain _ _ p set ll Wj Sj HT Er)|apply (C145_mc_strict _ _ p set ll Wj Sj HT Er)].
Qed.
Print Assumptions C145_ctmc_untimed_gain.

(** ** GoHMM *)
Lemma go_gain d m set p m' ll : wf_gohmm d m -> pos_sigma d m -> go_sub m -> obs_dim d set -> pos_times set -> round_GoHMM p d set m = Ok (m', ll) -> pos_sigma d m' ->
  set_ll (go_trace_density_move m) set + go_moved d set m m' <= set_ll (go_trace_density_move m') set.
Proof.
  intros W Sg [[N S1] Si] Hd HT E Sg'.
  destruct (round_GoHMM_spec m d W Sg set Hd N p m' ll E) as (B & C & D & _ & _ & Li & G & H1 & H2 & I & L & X).
  destruct (g_em_gain m d W Sg set Hd N HT m' X C Li G H1 H2 I Sg' S1 Si) as [M1 M2].
  assert (P' : forall tr, Pof (go_n m) (vget (go_ini m')) (gW m') go1 tr = go_trace_density_move m' tr).
  { intros tr. rewrite <- gP_path. rewrite C. reflexivity. }
  rewrite (set_ll_ext _ _ set (fun tr t _ => gP_path m tr)) in M1.
  rewrite (set_ll_ext _ _ set (fun tr t _ => P' tr)) in M1.
  replace (go_moved d set m m') with (go_change m d set m'); [exact M1|].
  unfold go_change, go_moved. f_equal; [|f_equal].
  - f_equal. apply Sum_ext. intros s Hs. apply gIN_path. exact Hs.
  - apply Sum_ext. intros s Hs. rewrite gDEN_path by exact Hs. reflexivity.
  - apply Sum_ext. intros s Hs. rewrite gDEN_path by exact Hs. reflexivity.
Qed.
Theorem C145_gohmm_gain : forall (d : nat) (m m' : gohmm R) (p : nat) set (ll : R),
  wf_gohmm d m -> pos_sigma d m -> go_sub m -> obs_dim d set -> pos_times set -> round_GoHMM p d set m = Ok (m', ll) -> pos_sigma d m' ->
  set_ll (go_trace_density_move m) set + go_moved d set m m' <= set_ll (go_trace_density_move m') set.
Proof. intros d m m' p set ll W Sg S Hd HT E Sg'. apply (go_gain d m set p m' ll); assumption. Qed.
Print Assumptions C145_gohmm_gain.

(** Every state must be visited: see C75 for the others. *)
Theorem C145_gohmm_strict : forall (d : nat) (m m' : gohmm R) (p : nat) set (ll : R),
  wf_gohmm d m -> pos_sigma d m -> go_sub m -> obs_dim d set -> pos_times set -> round_GoHMM p d set m = Ok (m', ll) -> pos_sigma d m' ->
  (forall s, (s < go_n m)%nat -> set_expected (go_trace_density_move m) (go_expected_visits m s) set <> 0) ->
  m' = m \/ set_ll (go_trace_density_move m) set < set_ll (go_trace_density_move m') set.
Proof.
  intros d m m' p set ll W Sg S Hd HT E Sg' Vis. pose proof (C145_gohmm_gain d m m' p set ll W Sg S Hd HT E Sg') as G.
  destruct S as [[N S1] Si].
  destruct (round_GoHMM_spec m d W Sg set Hd N p m' ll E) as (B & C & Sq & Lo & Ro & Li & _ & _ & _ & _ & _ & X).
  destruct (round_go_ok d m set p m' ll (conj W N) Sg Hd E HT) as ((W' & N') & _).
  set (V := fun s => set_expected (go_trace_density_move m) (go_expected_visits m s) set).
  assert (Vp : forall s, (s < go_n m)%nat -> 0 < V s).
  { intros s Hs. pose proof (gDEN_nonneg m d W Sg set Hd N HT s Hs) as Dn. rewrite gDEN_path in Dn by exact Hs. specialize (Vis s Hs). unfold V. lra. }
  assert (Tp : 0 < Sum (go_n m) (fun s => set_expected (go_trace_density_move m) (go_expected_starts m s) set)).
  { rewrite <- (Sum_ext (go_n m) (gIN m set)) by (intros s Hs; apply gIN_path; exact Hs). exact (g_INtot m set HT X). }
  unfold go_moved in G. set (T := Sum (go_n m) (fun s => set_expected (go_trace_density_move m) (go_expected_starts m s) set)) in *.
  set (F1 := fun s => set_expected (go_trace_density_move m) (go_expected_visits m s) set * moved (go_n m) (matR (go_mat m) s) (matR (go_mat m') s)) in G.
  set (O := fun s k => (mean m' s k - mean m s k) ^ 2 / (2 * stddev m' s k ^ 2) + (stddev m' s k / stddev m s k - 1) ^ 2 / 2) in *.
  set (F2 := fun s => set_expected (go_trace_density_move m) (go_expected_visits m s) set * Sum d (O s)).
  change (set_ll (go_trace_density_move m) set + (T * moved (go_n m) (vecR (go_ini m)) (vecR (go_ini m')) + (Sum (go_n m) F1 + Sum (go_n m) F2)) <= set_ll (go_trace_density_move m') set) in G.
  assert (Op : forall s k, (s < go_n m)%nat -> (k < d)%nat -> 0 <= (mean m' s k - mean m s k) ^ 2 / (2 * stddev m' s k ^ 2) /\ 0 <= (stddev m' s k / stddev m s k - 1) ^ 2 / 2).
  { intros s k Hs Hk. assert (0 < stddev m' s k) by (apply Sg'; [rewrite C; exact Hs|exact Hk]).
    split; apply Rmult_le_pos; try apply pow2_ge_0; [|lra]. apply Rlt_le, Rinv_0_lt_compat. nra. }
  assert (On : forall s, (s < go_n m)%nat -> 0 <= Sum d (O s)) by (intros s Hs; apply Sum_nonneg; intros k Hk; destruct (Op s k Hs Hk); unfold O; lra).
  assert (P1 : forall s, (s < go_n m)%nat -> 0 <= F1 s) by (intros s Hs; apply Rmult_le_pos; [apply Rlt_le, Vp; exact Hs|apply moved_nonneg]).
  assert (P2 : forall s, (s < go_n m)%nat -> 0 <= F2 s) by (intros s Hs; apply Rmult_le_pos; [apply Rlt_le, Vp; exact Hs|apply On; exact Hs]).
  pose proof (Sum_nonneg _ _ P1) as Q1. pose proof (Sum_nonneg _ _ P2) as Q2.
  pose proof (Rmult_le_pos _ _ (Rlt_le _ _ Tp) (moved_nonneg (go_n m) (vecR (go_ini m)) (vecR (go_ini m')))) as Q0.
  destruct (Rle_dec (T * moved (go_n m) (vecR (go_ini m)) (vecR (go_ini m')) + (Sum (go_n m) F1 + Sum (go_n m) F2)) 0) as [Z|P]; [left|right; lra].
  assert (Ma : go_mat m' = go_mat m).
  { apply (mat_ext (go_n m)); [exact Sq|apply W|]. intros s s' Hs Hs'.
    assert (Z' : F1 s = 0) by (apply (Sum_nonneg_zero (go_n m) F1); auto; lra).
    apply Req_le in Z'. apply visits_moved_zero in Z'; [|apply Rlt_le, Vp; exact Hs]. destruct Z' as [V0|V0]; [exfalso; exact (Vis s Hs V0)|].
    apply (moved_zero (go_n m) (matR (go_mat m) s) (matR (go_mat m') s)); auto; intros j Hj; apply mget_nonneg; assumption. }
  assert (Mo : go_out m' = go_out m).
  { destruct W as (_ & Lo0 & Ro0 & _).
    apply (nth_ext _ _ [] []); [congruence|]. intros s Hs. rewrite Lo in Hs.
    assert (L1 : length (nth s (go_out m') []) = d) by (apply Ro, nth_In; lia).
    assert (L0 : length (nth s (go_out m) []) = d) by (apply Ro0, nth_In; lia).
    apply (nth_ext _ _ (0, 0) (0, 0)); [congruence|]. intros k Hk. rewrite L1 in Hk.
    assert (Z2 : F2 s = 0) by (apply (Sum_nonneg_zero (go_n m) F2); auto; lra). unfold F2 in Z2.
    apply Rmult_integral in Z2. destruct Z2 as [Z2|Z2]; [exfalso; exact (Vis s Hs Z2)|].
    assert (Z3 : O s k = 0) by (apply (Sum_nonneg_zero d (O s)); [intros i Hi; destruct (Op s i Hs Hi); unfold O; lra|lra|exact Hk]).
    destruct (Op s k Hs Hk) as [O1 O2]. unfold O in Z3.
    assert (Sp : 0 < stddev m' s k) by (apply Sg'; [rewrite C; exact Hs|exact Hk]). pose proof (Sg s k Hs Hk) as Sp0.
    assert (E1 : (mean m' s k - mean m s k) ^ 2 / (2 * stddev m' s k ^ 2) = 0) by lra.
    assert (E2 : (stddev m' s k / stddev m s k - 1) ^ 2 / 2 = 0) by lra.
    assert (M1 : mean m' s k = mean m s k).
    { unfold Rdiv in E1. apply Rmult_integral in E1. destruct E1 as [E1|E1]; [nra|]. exfalso. assert (0 < / (2 * stddev m' s k ^ 2)) by (apply Rinv_0_lt_compat; nra). lra. }
    assert (M2 : stddev m' s k = stddev m s k).
    { assert (Q : stddev m' s k / stddev m s k = 1) by nra. apply (f_equal (fun z => z * stddev m s k)) in Q. unfold Rdiv in Q. rewrite Rmult_assoc, Rinv_l in Q by lra. lra. }
    unfold mean, stddev in M1, M2. rewrite (surjective_pairing (nth k (nth s (go_out m') []) (0, 0))), (surjective_pairing (nth k (nth s (go_out m) []) (0, 0))). congruence. }
  assert (Mi : go_ini m' = go_ini m).
  { assert (Li0 : length (go_ini m) = go_n m) by apply W.
    apply (nth_ext _ _ 0 0); [congruence|]. intros s Hs. rewrite Li in Hs.
    apply (moved_zero (go_n m) (vecR (go_ini m)) (vecR (go_ini m'))); auto.
    - intros j Hj. apply vget_nonneg. apply W.
    - intros j Hj. apply vget_nonneg. apply W'.
    - pose proof (moved_nonneg (go_n m) (vecR (go_ini m)) (vecR (go_ini m'))). nra. }
  destruct m, m'. cbn in *. subst. reflexivity.
Qed.
Print Assumptions C145_gohmm_strict.

(** Whole runs, under the conditions of C75 that keep all deviations positive. *)
Definition go_good (d : nat) (x : gohmm R) : Prop := wf_gohmm d x /\ stochastic (go_mat x) /\ rsum (go_ini x) = 1 /\ go_full d x.
Lemma go_good_round d set p x x' l : go_good d x -> obs_dim d set -> pos_times set -> varied d set -> round_GoHMM p d set x = Ok (x', l) ->
  go_good d x' /\ l = set_ll (go_trace_density_move x) set /\
  set_ll (go_trace_density_move x) set + go_moved d set x x' <= set_ll (go_trace_density_move x') set.
Proof.
  intros (Wx & Sx & Ix & Fx) Hd HT V Er. pose proof Fx as (_ & Sg & _).
  destruct (C75_gohmm_round_stochastic d x x' p set l Wx Sg Sx Hd HT Er) as (Wx' & Sx' & Ix' & _).
  pose proof (round_full d x set p x' l Wx Fx Hd HT V Er) as Fx'. pose proof Fx' as (_ & Sg' & _).
  assert (Sb : go_sub x) by (split; [split; [apply Sx|intros r I; rewrite (proj2 Sx r I); lra]|lra]).
  split; [repeat split; auto; try apply Wx'; try apply Sx'; apply Fx'|].
  split; [apply (C71_gohmm_round_likelihood d x x' p set l Wx Sg Sb Hd HT Er Sg')|apply (go_gain d x set p x' l Wx Sg Sb Hd HT Er Sg')].
Qed.
Theorem C145_gohmm_stops : forall (d : nat) (m m' : gohmm R) (p max_it c : nat) set (eps : R) ll,
  wf_gohmm d m -> stochastic (go_mat m) -> rsum (go_ini m) = 1 -> go_full d m -> obs_dim d set -> pos_times set -> varied d set ->
  bw_loop (round_GoHMM p d set) eps max_it None 0 m = Ok (m', c, ll, true) ->
  exists k t m1 m2 l1 l2, rounds (round_GoHMM p d set) (go_moved d set) k m m1 t /\
    round_GoHMM p d set m1 = Ok (m2, l1) /\ round_GoHMM p d set m2 = Ok (m', l2) /\ c = (k + 2)%nat /\ go_moved d set m1 m2 < eps.
Proof.
  intros d m m' p mx c set eps ll W S Si F Hd HT V E.
  apply (bw_stops (round_GoHMM p d set) eps (go_moved d set) (go_good d) (fun x => set_ll (go_trace_density_move x) set)) with (fuel := mx) (ll := ll); auto.
  - intros x x' l Gx Ex. apply (go_good_round d set p x x' l Gx Hd HT V Ex).
  - split; [exact W|]. split; [exact S|]. split; assumption.
Qed.
Print Assumptions C145_gohmm_stops.
Theorem C145_gohmm_total : forall (d : nat) (m m' : gohmm R) (p k : nat) set (c : R),
  wf_gohmm d m -> stochastic (go_mat m) -> rsum (go_ini m) = 1 -> go_full d m -> obs_dim d set -> pos_times set -> varied d set ->
  rounds (round_GoHMM p d set) (go_moved d set) k m m' c ->
  c <= set_ll (go_trace_density_move m') set - set_ll (go_trace_density_move m) set.
Proof.
  intros d m m' p k set c W S Si F Hd HT V H.
  destruct (rounds_gain (round_GoHMM p d set) (go_moved d set) (go_good d) (fun x => set_ll (go_trace_density_move x) set)) with (2 := H) as [_ G]; [| |exact G].
  - intros x x' l Gx Ex. destruct (go_good_round d set p x x' l Gx Hd HT V Ex) as (A & _ & B). split; assumption.
  - split; [exact W|]. split; [exact S|]. split; assumption.
Qed.
Print Assumptions C145_gohmm_total.
