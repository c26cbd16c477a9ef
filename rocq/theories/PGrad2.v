(** C146 for continuous-time Markov chains learned from timed traces. *)
From Coq Require Import String ZArith Bool Reals List Lia Lra Classical_Prop FunctionalExtensionality.
From Verif Require Import Num Py SNum SPath LSum MSet SSet LSet MModels MLik MBW LFB LEM SBW LBW LBWSet LBWMC SLik LPath LLik LLik2 LBWLoop LBWPath SExp LEMGen LBWHMM LBWMDP LBWCT LBWGO PLik LFit PBWMC PBWHMM PBWMDP PBWCT PBWCTU PBWGO SGain LGain PGain PGain2 SGrad LGrad LGrad2 PGrad.
Import ListNotations.
Local Open Scope R_scope.

Notation tXI m set := (cXI m set (tW m) (tf m)).
Notation tDEN m set := (cDEN m set (tW m) (tf m) tc).
Definition ct_with (m : ctmc R) (A : list (list R)) : ctmc R := mkCTMC A (ct_lab m) (ct_ini m) (ct_name m).
(** slope of one rate *)
Definition rate_slope (x d p q : R) : R := x * ((q - p) / p) - d * (q - p).

Lemma rsum_mixv t p : forall q, length q = length p -> rsum (mixv t p q) = mix t (rsum p) (rsum q).
Proof.
  induction p as [|x p IH]; intros [|y q] L; try discriminate; [unfold mix; cbn; ring|]. cbn [length] in L.
  change (mixv t (x :: p) (y :: q)) with (mix t x y :: mixv t p q). rewrite !rsum_cons, IH by congruence. unfold mix; ring.
Qed.
Lemma exit_mix m A t s : Forall2 keeps (ct_mat m) A ->
  exit_rate (ct_towards m A t) s = mix t (exit_rate m s) (exit_rate (ct_with m A) s).
Proof.
  intros F. pose proof (Forall2_len _ _ _ F) as L. unfold exit_rate. cbn [ct_towards ct_with ct_mat]. destruct (Nat.lt_ge_cases s (length (ct_mat m))) as [Hs|Hs].
  - unfold mixm. rewrite (nth_map_combine _ _ _ _ [] []) by assumption. cbn [fst snd]. apply rsum_mixv. apply (Forall2_nth _ _ _ [] [] F s Hs).
  - rewrite !nth_overflow by (try (rewrite mixm_length by exact L); lia). unfold mix; cbn; ring.
Qed.
Lemma tb_0 m A : Forall2 keeps (ct_mat m) A -> tb (ct_towards m A 0) = tb m.
Proof.
  intros F. do 2 (apply functional_extensionality; intro). unfold tb. rewrite exit_mix by exact F. cbn [ct_towards ct_lab]. do 3 f_equal. unfold mix. ring.
Qed.

Lemma ct_slope_eq m set A : ct_ok m -> timed_set set -> Forall2 keeps (ct_mat m) A ->
  ct_slope set m A (Sum (ct_n m) (fun s => Sum (ct_n m) (fun s' => rate_slope (tXI m set s s') (tDEN m set s) (rate m s s') (matR A s s')))).
Proof.
  intros [W N] Ti F. pose proof (Forall2_len _ _ _ F) as L. unfold ct_slope.
  assert (Sq : square (ct_n m) (ct_mat m)) by apply W.
  assert (SqA : square (ct_n m) A) by (apply (keeps_square (ct_n m) (ct_mat m)); assumption).
  set (c := fun s => - (exit_rate (ct_with m A) s - exit_rate m s)).
  eapply dl_ext. 3: apply (set_dl (ct_n m) set ots (tf m) (fun _ => vecR (ct_ini m))
    (fun t _ => matR (mixm t (ct_mat m) A)) (fun t => tb (ct_towards m A t)) (fun _ => 0)
    (fun _ s s' => (matR A s s' - matR (ct_mat m) s s') / matR (ct_mat m) s s') (fun o s => snd o * c s)).
  - intros t. cbv beta. apply set_ll_ext. intros tr k I. rewrite <- tP_path by apply (Ti tr k I).
    unfold Pof, tW, ct_n. cbn [ct_mat ct_towards ct_ini]. rewrite mixm_length by exact L. reflexivity.
  - rewrite slope_ini_zero, Rplus_0_l.
    rewrite <- Sum_plus. apply Sum_ext. intros s Hs.
    assert (Ee : slope_emit (ct_n m) set ots (tf m) (fun _ => vecR (ct_ini m)) (fun t _ => matR (mixm t (ct_mat m) A)) (fun t => tb (ct_towards m A t)) (fun o s => snd o * c s) s
      = tDEN m set s * c s).
    { unfold slope_emit, cDEN, GA. rewrite mixm_0, tb_0 by exact F. rewrite <- psum_scal_r. apply psum_ext. intros x t I P.
      rewrite wsum_scal_r. unfold tc, tW, tA. change (@vget R RNum) with vecR. ring. }
    rewrite Ee. unfold c. rewrite (t_exit m m), (t_exit m (ct_with m A)) by assumption. cbn [ct_with ct_mat].
    replace (tDEN m set s * _) with (Sum (ct_n m) (fun s' => - (tDEN m set s * (matR A s s' - matR (ct_mat m) s s')))).
    + rewrite <- Sum_plus. apply Sum_ext. intros s' Hs'.
      rewrite (slope_trans_const (ct_n m) set ots (tf m) (fun _ => vecR (ct_ini m)) (fun t _ => matR (mixm t (ct_mat m) A)) (fun t => tb (ct_towards m A t))
         (fun s s' => (matR A s s' - matR (ct_mat m) s s') / matR (ct_mat m) s s')).
      rewrite mixm_0, tb_0 by exact F. unfold rate_slope, rate, Rminus. reflexivity.
    + rewrite (Sum_ext (ct_n m) _ (fun s' => (- tDEN m set s) * (matR A s s' - matR (ct_mat m) s s'))) by (intros; ring).
      rewrite Sum_scal_l, Sum_minus. change (@mget R RNum) with matR. ring.
  - intros x t I. apply (t_okf m set x t I).
  - apply (t_oka m W).
  - rewrite mixm_0, tb_0 by exact F. exact (t_HA m set N).
  - intros s Hs. rewrite Rmult_0_r. apply dl_const.
  - intros x t o s s' I Io Hs Hs'. rewrite mixm_get by exact F. eapply dl_ext. 3: apply (dl_mix (matR (ct_mat m) s s') (matR A s s')).
    + intros u. rewrite mixm_get by exact F. reflexivity.
    + reflexivity.
    + apply keeps_mat. exact F.
  - intros x t o s I Io Hs. rewrite tb_0 by exact F.
    eapply dl_ext. 3: apply (dl_mult (fun _ => is_label (ct_lab m) (fst o) s) (fun t => exp (mix t (exit_rate m s) (exit_rate (ct_with m A) s) * (- snd o))));
      [apply dl_const|apply (dl_exp (fun t => mix t (exit_rate m s) (exit_rate (ct_with m A) s) * (- snd o))), dl_scal_r; apply dl_blend].
    + intros u. cbv beta. unfold tb. rewrite exit_mix by exact F. cbn [ct_towards ct_lab]. do 2 f_equal. ring.
    + cbv beta. unfold tb, c. replace (mix 0 (exit_rate m s) (exit_rate (ct_with m A) s) * - snd o) with (- (exit_rate m s * snd o)) by (unfold mix; ring). ring.
  - auto.
  - intros u x t o s s' I Io Hs Hs' Z. rewrite mixm_get in * by exact F. rewrite tb_0 in Z by exact F. apply Rmult_integral in Z. destruct Z as [Z|Z].
    + unfold tb in *. cbn [ct_towards ct_lab]. apply Rmult_integral in Z. destruct Z as [Z|Z]; [rewrite Z; ring|].
      pose proof (exp_pos (- (exit_rate m s * snd o))). lra.
    + assert (Z' : matR (ct_mat m) s s' = 0) by (unfold mix in Z; lra). rewrite (keeps_mat _ _ s s' F Z'), Z'. unfold mix; ring.
Qed.

(** Directions in which the learning algorithm may move: fixed rates stay. *)
Definition ct_within (fixed : list (list bool)) (m : ctmc R) (A : list (list R)) : Prop :=
  Forall2 keeps (ct_mat m) A /\ forall s s', (s < ct_n m)%nat -> (s' < ct_n m)%nat -> is_fixed fixed s s' = true -> matR A s s' = rate m s s'.
(** No observation follows the previous one at once. *)
Definition pos_dwell (set : list ((list string * list R) * Z)) : Prop :=
  forall tr t, In (tr, t) set -> length (fst tr) = S (length (snd tr)) /\ forall d, In d (snd tr) -> 0 < d.
Lemma pos_dwell_timed set : pos_dwell set -> timed_set set.
Proof. intros H tr t I. destruct (H tr t I) as [L D]. split; [exact L|]. intros d Id. apply Rlt_le, D, Id. Qed.

Lemma wsum_pos_zero (g c : list R) : (forall y, In y g -> 0 <= y) -> (forall y, In y c -> 0 < y) -> (length g <= length c)%nat -> wsum g c = 0 -> rsum g = 0.
Proof.
  revert c. induction g as [|x g IH]; intros [|y c] Hg Hc L E; cbn [length] in L; try lia; [reflexivity|reflexivity|].
  rewrite wsum_cons in E. assert (0 <= wsum g c) by (apply wsum_nonneg; [intros z Iz; apply Hg; right; exact Iz|intros z Iz; apply Rlt_le, Hc; right; exact Iz]).
  assert (0 <= x) by (apply Hg; left; reflexivity). assert (0 < y) by (apply Hc; left; reflexivity).
  assert (0 <= x * y) by (apply Rmult_le_pos; lra). assert (Z : x * y = 0) by lra. assert (Zw : wsum g c = 0) by lra.
  apply Rmult_integral in Z. rewrite rsum_cons, (IH c); auto; [lra|intros; apply Hg; right; assumption|intros; apply Hc; right; assumption|lia].
Qed.
(** a state in which no time is expected to be spent is not left *)
Lemma tDEN_zero_XI m set s s' : ct_ok m -> pos_dwell set -> pos_times set -> (s < ct_n m)%nat -> (s' < ct_n m)%nat -> tDEN m set s = 0 -> tXI m set s s' = 0.
Proof.
  intros [W N] D HT Hs Hs' Z. unfold cXI. apply psum_zero. intros x t I Px.
  assert (Ow : Forall (okw (ct_n m)) (tW m x)) by (apply (t_okw m set N x t I)).
  assert (Ng : forall y, In y (gam (ct_n m) (vget (ct_ini m)) (tW m x) (tf m x) s) -> 0 <= y).
  { intros y Iy. apply (gam_nonneg (ct_n m) (vget (ct_ini m)) (tW m x) (tf m x) s); auto using (t_oka m W), (t_okf m set x t I). }
  assert (G0 : wsum (gam (ct_n m) (vget (ct_ini m)) (tW m x) (tf m x) s) (tc x) = 0).
  { pose proof (fac_pos (ct_n m) set (vget (ct_ini m)) (tW m) (tf m) HT x t I Px) as Fp.
    assert (K : wsum (gam (ct_n m) (vget (ct_ini m)) (tW m x) (tf m x) s) (tc x) * fac (ct_n m) (vget (ct_ini m)) (tW m) (tf m) x t = 0).
    { refine (psum_eq0 (ct_n m) set (vget (ct_ini m)) (tW m) (tf m) (fun x t => wsum (gam (ct_n m) (vget (ct_ini m)) (tW m x) (tf m x) s) (tc x) * fac (ct_n m) (vget (ct_ini m)) (tW m) (tf m) x t) _ Z x t I Px).
      intros y u Iy Py. apply Rmult_le_pos; [|apply Rlt_le, (fac_pos (ct_n m) set (vget (ct_ini m)) (tW m) (tf m) HT); auto].
      apply wsum_nonneg.
      - intros z Iz. apply (gam_nonneg (ct_n m) (vget (ct_ini m)) (tW m y) (tf m y) s); auto using (t_oka m W), (t_okf m set y u Iy). apply (t_okw m set N y u Iy).
      - intros z Iz. rewrite tc_eq in Iz by apply (D y u Iy). apply Rlt_le, (D y u Iy), Iz. }
    apply Rmult_integral in K. destruct K as [K|K]; [exact K|lra]. }
  apply wsum_pos_zero in G0; [|exact Ng|intros z Iz; rewrite tc_eq in Iz by apply (D x t I); apply (D x t I), Iz|].
  - replace (wsum _ _) with 0; [ring|]. symmetry. unfold ones1. rewrite wsum_ones1 by apply xi_length.
    rewrite <- (wsum_ones1 (gam (ct_n m) (vget (ct_ini m)) (tW m x) (tf m x) s) (length (tW m x))) in G0 by apply gam_length.
    rewrite gam_xi in G0 by exact Hs.
    rewrite <- (wsum_ones1 (xi (ct_n m) (vget (ct_ini m)) (tW m x) (tf m x) s s') (length (tW m x))) by apply xi_length.
    refine (Sum_nonneg_zero (ct_n m) (fun s' => wsum (xi (ct_n m) (vget (ct_ini m)) (tW m x) (tf m x) s s') (repeat 1 (length (tW m x)))) _ (Req_le _ _ G0) s' Hs').
    intros j Hj. apply wsum_nonneg; [|intros y Iy; apply repeat_spec in Iy; lra].
    intros y Iy. apply (xi_nonneg (ct_n m) (vget (ct_ini m)) (tW m x) (tf m x) s j); auto using (t_oka m W), (t_okf m set x t I).
  - rewrite gam_length. unfold tc, tW. rewrite ew_length, map_length. lia.
Qed.

Theorem C146_ctmc_timed_stationary : forall (m : ctmc R) (fixed : list (list bool)) (p : nat) set (ll : R),
  wf_ctmc m -> nonneg_mat (ct_mat m) -> pos_dwell set -> pos_times set -> round_CTMC_timed p fixed set m = Ok (m, ll) ->
  forall A, ct_within fixed m A -> ct_slope set m A 0.
Proof.
  intros m fixed p set ll W N D HT E A [F Fx]. pose proof (pos_dwell_timed set D) as Ti.
  pose proof (ct_slope_eq m set A (conj W N) Ti F) as Sl.
  destruct (update_CTMC_spec m fixed set (tW m) (tf m) tc _ (t_work m W fixed set) (t_P_nonneg m W set N) p m ll E) as (_ & _ & _ & _ & _ & G & _).
  replace (Sum _ _) with 0 in Sl; [exact Sl|]. symmetry. apply Sum_zero_ext. intros s Hs. apply Sum_zero_ext. intros s' Hs'.
  unfold rate_slope. destruct (is_fixed fixed s s') eqn:Fi.
  - rewrite (Fx s s' Hs Hs' Fi). unfold Rdiv. ring.
  - specialize (G s s' Hs Hs'). change (fixed_get fixed s s') with (is_fixed fixed s s') in G. rewrite Fi in G. unfold est, cNUM in G.
    change (fixed_get fixed s s') with (is_fixed fixed s s') in G. rewrite Fi in G. change (mget (ct_mat m) s s') with (rate m s s') in G.
    destruct (Req_EM_T (tDEN m set s) 0) as [Z|Z].
    + rewrite Z, (tDEN_zero_XI m set s s' (conj W N) D HT Hs Hs' Z). ring.
    + destruct (Req_dec (rate m s s') 0) as [Z'|Z'].
      * rewrite (keeps_mat _ _ s s' F Z'), Z'. unfold Rdiv; ring.
      * assert (X : tXI m set s s' = tDEN m set s * rate m s s') by (rewrite G; field; exact Z). rewrite X. field. exact Z'.
Qed.
Print Assumptions C146_ctmc_timed_stationary.

(** Fixed rates must belong to states the model spends time in, see C45. *)
Theorem C146_ctmc_timed_ascent : forall (m m' : ctmc R) (fixed : list (list bool)) (p : nat) set (ll : R),
  wf_ctmc m -> nonneg_mat (ct_mat m) -> timed_set set -> pos_times set -> round_CTMC_timed p fixed set m = Ok (m', ll) ->
  (forall s s', (s < ct_n m)%nat -> (s' < ct_n m)%nat -> is_fixed fixed s s' = true -> rate m s s' <> 0 ->
     set_expected (ct_density m) (ct_expected_dwell m s) set <> 0) ->
  ct_within fixed m (ct_mat m') /\ exists g, ct_slope set m (ct_mat m') g /\ 0 <= g /\ (m' <> m -> 0 < g).
Proof.
  intros m m' fixed p set ll W N Ti HT E Fx.
  destruct (update_CTMC_spec m fixed set (tW m) (tf m) tc _ (t_work m W fixed set) (t_P_nonneg m W set N) p m' ll E) as (B1 & B2 & B3 & B4 & Sq & G & _).
  destruct (round_ct_ok m fixed set p m' ll (conj W N) Ti HT E) as [[W' N'] _].
  assert (Sq0 : square (ct_n m) (ct_mat m)) by apply W.
  assert (Fi : forall s s', (s < ct_n m)%nat -> (s' < ct_n m)%nat -> is_fixed fixed s s' = true -> rate m' s s' = rate m s s').
  { intros s s' Hs Hs' Fi. change (mget (ct_mat m') s s' = mget (ct_mat m) s s'). rewrite G by assumption. unfold est, cNUM. change (fixed_get fixed s s') with (is_fixed fixed s s'). rewrite Fi.
    destruct (Req_EM_T (tDEN m set s) 0) as [Z|Z]; [|unfold Rdiv; ring]. destruct (Req_dec (rate m s s') 0) as [Z'|Z'].
    - change (mget (ct_mat m) s s') with (rate m s s'). rewrite Z'. ring.
    - exfalso. apply (Fx s s' Hs Hs' Fi Z'). rewrite <- (tDEN_path m set Ti) by exact Hs. exact Z. }
  assert (Fr : forall s s', (s < ct_n m)%nat -> (s' < ct_n m)%nat -> is_fixed fixed s s' = false -> rate m' s s' = est (tDEN m set s) (tXI m set s) (rate m s) s').
  { intros s s' Hs Hs' Fi'. change (mget (ct_mat m') s s' = est (tDEN m set s) (tXI m set s) (rate m s) s'). rewrite G by assumption. unfold est, cNUM. change (fixed_get fixed s s') with (is_fixed fixed s s'). rewrite Fi'.
    destruct (Req_EM_T (tDEN m set s) 0); [change (mget (ct_mat m) s s') with (rate m s s')|]; ring. }
  assert (Ze : forall s s', (s < ct_n m)%nat -> (s' < ct_n m)%nat -> rate m s s' = 0 -> rate m' s s' = 0).
  { intros s s' Hs Hs' Z. destruct (is_fixed fixed s s') eqn:Q; [rewrite Fi by assumption; exact Z|]. rewrite Fr by assumption. unfold est.
    destruct (Req_EM_T _ 0); [exact Z|]. rewrite (tXI_zero m set s s' Z). unfold Rdiv; ring. }
  assert (F : Forall2 keeps (ct_mat m) (ct_mat m')).
  { destruct Sq as [L1 L2], Sq0 as [K1 K2]. apply (Forall2_of_nth _ _ _ [] []); [congruence|]. intros s Hs. rewrite K1 in Hs.
    assert (J : In (nth s (ct_mat m') []) (ct_mat m')) by (apply nth_In; lia). assert (J0 : In (nth s (ct_mat m) []) (ct_mat m)) by (apply nth_In; lia).
    split; [rewrite (L2 _ J), (K2 _ J0); reflexivity|]. split; [apply (N' _ J)|].
    intros j Z. destruct (Nat.lt_ge_cases j (ct_n m)) as [Hj|Hj]; [apply (Ze s j Hs Hj Z)|]. unfold vecR. apply nth_overflow. rewrite (L2 _ J). exact Hj. }
  split; [split; [exact F|exact Fi]|]. eexists. split; [apply ct_slope_eq; [split; assumption|exact Ti|exact F]|].
  assert (Cell : forall s s', (s < ct_n m)%nat -> (s' < ct_n m)%nat ->
    0 <= rate_slope (tXI m set s s') (tDEN m set s) (rate m s s') (rate m' s s') /\
    (rate_slope (tXI m set s s') (tDEN m set s) (rate m s s') (rate m' s s') = 0 -> rate m' s s' = rate m s s')).
  { intros s s' Hs Hs'. unfold rate_slope. destruct (is_fixed fixed s s') eqn:Q.
    - rewrite Fi by assumption. split; [|reflexivity]. unfold Rdiv. right. ring.
    - rewrite (Fr s s' Hs Hs' Q). unfold est. destruct (Req_EM_T (tDEN m set s) 0) as [Z|Z].
      + split; [|reflexivity]. unfold Rdiv. right. ring.
      + destruct (Req_dec (rate m s s') 0) as [Z'|Z'].
        * rewrite (tXI_zero m set s s' Z'), Z'. split; [unfold Rdiv; right; ring|intros; unfold Rdiv; ring].
        * assert (Dp : 0 < tDEN m set s) by (assert (0 <= tDEN m set s) by (apply (tDEN_nonneg m W set N HT (timed_dw set Ti)); exact Hs); lra).
          assert (Rp : 0 < rate m s s') by (assert (0 <= rate m s s') by (apply mget_nonneg; exact N); lra).
          set (q := tXI m set s s' / tDEN m set s). replace (tXI m set s s') with (tDEN m set s * q) by (unfold q; field; exact Z).
          replace (tDEN m set s * q * ((q - rate m s s') / rate m s s') - tDEN m set s * (q - rate m s s')) with (tDEN m set s / rate m s s' * (q - rate m s s') ^ 2) by (field; exact Z').
          assert (Kp : 0 < tDEN m set s / rate m s s') by (apply Rdiv_lt_0_compat; assumption).
          split; [apply Rmult_le_pos; [lra|apply pow2_ge_0]|]. intros K. apply Rmult_integral in K. destruct K as [K|K]; [lra|]. nra. }
  set (X := fun s s' => rate_slope (tXI m set s s') (tDEN m set s) (rate m s s') (rate m' s s')) in *.
  change (0 <= Sum (ct_n m) (fun s => Sum (ct_n m) (X s)) /\ (m' <> m -> 0 < Sum (ct_n m) (fun s => Sum (ct_n m) (X s)))).
  assert (Xr : forall s, (s < ct_n m)%nat -> 0 <= Sum (ct_n m) (X s)) by (intros s Hs; apply Sum_nonneg; intros s' Hs'; apply (Cell s s' Hs Hs')).
  assert (X0 : 0 <= Sum (ct_n m) (fun s => Sum (ct_n m) (X s))) by (apply Sum_nonneg; exact Xr).
  split; [exact X0|]. intros Ne. destruct (Rle_dec (Sum (ct_n m) (fun s => Sum (ct_n m) (X s))) 0) as [Z|Z]; [|lra]. exfalso. apply Ne.
  assert (Ma : ct_mat m' = ct_mat m).
  { apply (mat_ext (ct_n m)); [exact Sq|exact Sq0|]. intros s s' Hs Hs'. apply (Cell s s' Hs Hs').
    apply (Sum_nonneg_zero (ct_n m) (X s)); auto; [intros j Hj; apply (Cell s j Hs Hj)|]. apply Req_le. apply (Sum_nonneg_zero (ct_n m) (fun s => Sum (ct_n m) (X s))); auto. }
  destruct m, m'. cbn in *. subst. reflexivity.
Qed.
Print Assumptions C146_ctmc_timed_ascent.

Theorem C146_ctmc_timed_fixed_iff_stationary : forall (m m' : ctmc R) (fixed : list (list bool)) (p : nat) set (ll : R),
  wf_ctmc m -> nonneg_mat (ct_mat m) -> pos_dwell set -> pos_times set -> round_CTMC_timed p fixed set m = Ok (m', ll) ->
  (forall s s', (s < ct_n m)%nat -> (s' < ct_n m)%nat -> is_fixed fixed s s' = true -> rate m s s' <> 0 ->
     set_expected (ct_density m) (ct_expected_dwell m s) set <> 0) ->
  (m' = m <-> forall A, ct_within fixed m A -> ct_slope set m A 0).
Proof.
  intros m m' fixed p set ll W N D HT E Fx. split.
  - intros -> . apply (C146_ctmc_timed_stationary m fixed p set ll W N D HT E).
  - intros H. destruct (C146_ctmc_timed_ascent m m' fixed p set ll W N (pos_dwell_timed set D) HT E Fx) as (F & g & Dg & _ & P).
    destruct (classic (m' = m)) as [Q|Q]; [exact Q|]. specialize (P Q). rewrite (slope_unique _ _ _ Dg (H _ F)) in P. lra.
Qed.
Print Assumptions C146_ctmc_timed_fixed_iff_stationary.

(** ** Traces without dwell times: the statement is about the jump chain. *)
Theorem C146_ctmc_untimed_fixed_iff_stationary : forall (m m' : ctmc R) (fixed : list (list bool)) (p : nat) set (ll : R),
  wf_ctmc m -> nonneg_mat (ct_mat m) -> live m -> no_fixed fixed -> pos_times set -> round_CTMC_untimed p fixed set m = Ok (m', ll) ->
  (jump_chain m' = jump_chain m <-> forall A, Forall2 row_within (mc_mat (jump_chain m)) A -> mc_slope set (jump_chain m) A 0) /\
  (jump_chain m' <> jump_chain m -> exists g, mc_slope set (jump_chain m) (mc_mat (jump_chain m')) g /\ 0 < g).
Proof.
  intros m m' fixed p set ll W N Lv NF HT E.
  destruct (round_untimed m fixed p set m' ll (conj W N) Lv NF HT E) as (Er & _).
  assert (Wj : wf_mc (jump_chain m)) by (apply jc_wf; exact W).
  assert (Sj : stochastic01 (mc_mat (jump_chain m))) by (split; [apply jc_nonneg; exact N|intros r I; right; apply (jc_rows m W Lv r I)]).
  split; [apply (C146_mc_fixed_iff_stationary _ _ p set ll Wj Sj HT Er)|].
  intros Ne. destruct (C146_mc_ascent _ _ p set ll Wj Sj HT Er) as (_ & g & D & _ & P). exists g. auto.
Qed.
Print Assumptions C146_ctmc_untimed_fixed_iff_stationary.

(** A dwell time of zero: the round leaves the rate as it is although the
    likelihood rises with it. *)
Definition gr_ct : ctmc R := mkCTMC [[0; 1]; [1; 0]] ["x"; "y"]%string [1; 0] "g"%string.
Definition gr_tset : list ((list string * list R) * Z) := [((["x"; "y"]%string, [0]), 1%Z)].
Definition gr_free : list (list bool) := [[false; false]; [false; false]].
Theorem C146_ctmc_timed_stationary_refuted : exists (m : ctmc R) (fixed : list (list bool)) set (ll : R) A,
  wf_ctmc m /\ nonneg_mat (ct_mat m) /\ timed_set set /\ pos_times set /\ round_CTMC_timed 1 fixed set m = Ok (m, ll) /\
  ct_within fixed m A /\ ct_slope set m A 1.
Proof.
  assert (W : wf_ctmc gr_ct).
  { unfold wf_ctmc, square, ct_n; cbn. repeat split; auto; [intros r [<-|[<-|[]]]; reflexivity|intros v [<-|[<-|[]]]; lra]. }
  assert (N : nonneg_mat (ct_mat gr_ct)) by (intros r [<-|[<-|[]]] v [<-|[<-|[]]]; lra).
  assert (A : timed_set gr_tset) by (intros tr t [E|[]]; inversion E; subst; split; [reflexivity|intros d [<-|[]]; lra]).
  assert (HT : pos_times gr_tset) by (intros st [<-|[]]; cbn; lia).
  assert (P : ct_density gr_ct (["x"; "y"]%string, [0]) = 1).
  { unfold ct_density, trace_prob, sumL, jump_density, is_label, exit_rate, rsum; cbn. rewrite Rmult_0_r, Ropp_0, exp_0. ring. }
  assert (V : forall s, set_expected (ct_density gr_ct) (ct_expected_dwell gr_ct s) gr_tset = 0).
  { intros s. unfold set_expected, gr_tset, sumL. cbn [map rsum fold_right fst snd]. rewrite P. destruct (Rlt_dec 0 1); [|lra].
    replace (ct_expected_dwell gr_ct s (["x"; "y"]%string, [0])) with 0; [unfold Rdiv; ring|].
    unfold ct_expected_dwell, ct_expected, expected, sumL, on_leave. cbn. destruct s as [|[|s]]; cbn; ring. }
  assert (Pp : forall tr t, In (tr, t) gr_tset -> 0 < ct_density gr_ct tr).
  { intros tr t [I|[]]; inversion I; subst; rewrite P; lra. }
  destruct (round_ct_succeeds gr_ct gr_free gr_tset 1) as (m' & ll & E); [split; assumption|exact A| |right; exact Pp|].
  { exists (["x"; "y"]%string, [0]), 1%Z. split; [left; reflexivity|]. apply (Pp _ 1%Z). left; reflexivity. }
  assert (Fr : forall s s', is_fixed gr_free s s' = false) by (intros [|[|[|s]]] [|[|[|s']]]; reflexivity).
  assert (Em : m' = gr_ct).
  { destruct (C73_ctmc_timed_round_is_ratio_of_expectations gr_ct m' _ 1 gr_tset ll W N A E) as (B1 & B2 & B3 & B4 & Sq & _ & K & _).
    assert (Ma : ct_mat m' = ct_mat gr_ct).
    { apply (mat_ext (ct_n gr_ct)); [exact Sq|apply W|]. intros s s' Hs Hs'. change (rate m' s s' = rate gr_ct s s'). rewrite K by (try assumption; apply Fr).
      rewrite V. destruct (Req_EM_T 0 0); [reflexivity|contradiction]. }
    destruct m'. cbn in B1, B2, B3, Ma. unfold gr_ct in *. cbn in *. subst. reflexivity. }
  subst m'. exists gr_ct, gr_free, gr_tset, ll, [[0; 2]; [1; 0]]. repeat (split; [assumption|]). split.
  - split; [|intros s s' _ _ Q; rewrite Fr in Q; discriminate].
    apply Forall2_cons; [|apply Forall2_cons; [|apply Forall2_nil]]; (split; [reflexivity|split; [intros v [<-|[<-|[]]]; lra|intros [|[|[|j]]] Z; cbn in *; lra]]).
  - unfold ct_slope. eapply dl_ext. 3: apply (dl_ln (fun t => mix t 1 2) (2 - 1)); [unfold mix; lra|apply dl_blend].
    + intros t. cbv beta. unfold set_ll, gr_tset, sumL. cbn [map rsum fold_right fst snd].
      replace (ct_density (ct_towards gr_ct [[0; 2]; [1; 0]] t) (["x"; "y"]%string, [0])) with (mix t 1 2).
      * destruct (Rlt_dec 0 (mix t 1 2)) as [Q|Q]; [ring|]. unfold ln. destruct (Rlt_dec 0 (mix t 1 2)); [contradiction|ring].
      * unfold ct_density, trace_prob, sumL, jump_density, is_label, exit_rate, rsum; cbn. rewrite Rmult_0_r, Ropp_0, exp_0. unfold mix. ring.
    + unfold mix. field.
Qed.
Print Assumptions C146_ctmc_timed_stationary_refuted.
