(** C146 for GoHMMs. *)
From Coq Require Import String ZArith Bool Reals List Lia Lra Psatz Classical_Prop FunctionalExtensionality.
From Verif Require Import Num Py SNum SPath LSum MSet SSet LSet MModels MLik MBW LFB LEM SBW LBW LBWSet LBWMC SLik LPath LLik LLik2 LBWLoop LBWPath SExp LEMGen LBWHMM LBWMDP LBWCT LBWGO PLik LFit PBWMC PBWHMM PBWMDP PBWCT PBWCTU PBWGO SGain LGain PGain PGain2 SGrad LGrad LGrad2 PGrad.
Import ListNotations.
Local Open Scope R_scope.

(** ** The derivative of a normal density *)
Lemma dl_square f l : dl f l -> dl (fun t => f t ^ 2) (2 * f 0 * l).
Proof. intros H. eapply dl_ext. 3: apply (dl_mult f f l l H H). - intros z; cbn; ring. - ring. Qed.
Lemma dl_inv f l : f 0 <> 0 -> dl f l -> dl (fun t => / f t) (- l / (f 0 ^ 2)).
Proof.
  intros N H. eapply dl_ext. 3: apply (derivable_pt_lim_div (fun _ => 1) f 0 0 l (dl_const 1) H N).
  - intros z. unfold div_fct. unfold Rdiv. ring.
  - unfold Rsqr. field. exact N.
Qed.
Lemma dl_sqrt f l : 0 < f 0 -> dl f l -> dl (fun t => sqrt (f t)) (l / (2 * sqrt (f 0))).
Proof.
  intros P H. eapply dl_ext. 3: apply (derivable_pt_lim_comp f sqrt 0 l (/ (2 * sqrt (f 0))) H (derivable_pt_lim_sqrt (f 0) P)).
  - intros z. reflexivity.
  - unfold Rdiv. ring.
Qed.
(** logarithmic derivative in the direction (dmu, dsg) *)
Definition norm_slope (mu sg dmu dsg x : R) : R := (x - mu) / sg ^ 2 * dmu + ((x - mu) * (x - mu) / sg ^ 3 - / sg) * dsg.
Lemma dl_normal mu sg mu1 sg1 x : 0 < sg ->
  dl (fun t => normal (mix t mu mu1) (mix t sg sg1) x) (normal mu sg x * norm_slope mu sg (mu1 - mu) (sg1 - sg) x).
Proof.
  intros P. assert (M0 : mix 0 mu mu1 = mu) by (unfold mix; ring). assert (S0 : mix 0 sg sg1 = sg) by (unfold mix; ring).
  assert (DM : dl (fun t => mix t mu mu1) (mu1 - mu)) by apply dl_blend. assert (DS : dl (fun t => mix t sg sg1) (sg1 - sg)) by apply dl_blend.
  assert (Nx : dl (fun t => x - mix t mu mu1) (- (mu1 - mu))).
  { eapply dl_ext. 3: apply (derivable_pt_lim_minus (fun _ => x) _ 0 _ _ (dl_const x) DM); intros; reflexivity. - reflexivity. - ring. }
  pose proof (dl_square _ _ Nx) as D1. pose proof (dl_square _ _ DS) as D2. cbv beta in D1, D2. rewrite M0 in D1. rewrite S0 in D2.
  assert (D3 : dl (fun t => / (2 * mix t sg sg1 ^ 2)) (- (sg1 - sg) / sg ^ 3)).
  { eapply dl_ext. 3: apply (dl_inv (fun t => mix t sg sg1 ^ 2 * 2)); [cbv beta; rewrite S0; nra|apply dl_scal_r; exact D2].
    - intros z. cbv beta. f_equal. ring.
    - cbv beta. rewrite S0. field. lra. }
  assert (D4 : dl (fun t => - ((x - mix t mu mu1) ^ 2 / (2 * mix t sg sg1 ^ 2))) ((x - mu) / sg ^ 2 * (mu1 - mu) + (x - mu) * (x - mu) / sg ^ 3 * (sg1 - sg))).
  { eapply dl_ext. 3: apply (dl_scal_r _ _ (-1) (dl_mult _ _ _ _ D1 D3)).
    - intros z. cbv beta. unfold Rdiv. ring.
    - cbv beta. rewrite M0, S0. field. lra. }
  assert (Pp : 0 < 2 * PI * sg ^ 2) by (pose proof PI_RGT_0; apply Rmult_lt_0_compat; nra).
  assert (D5 : dl (fun t => sqrt (2 * PI * mix t sg sg1 ^ 2)) (sqrt (2 * PI * sg ^ 2) * ((sg1 - sg) / sg))).
  { eapply dl_ext. 3: apply (dl_sqrt (fun t => mix t sg sg1 ^ 2 * (2 * PI))); [cbv beta; rewrite S0; lra|apply dl_scal_r; exact D2].
    - intros z. cbv beta. f_equal. ring.
    - cbv beta. rewrite S0. replace (sg ^ 2 * (2 * PI)) with (2 * PI * sg ^ 2) by ring.
      pose proof (sqrt_lt_R0 _ Pp) as Qp. pose proof (sqrt_sqrt _ (Rlt_le _ _ Pp)) as QQ.
      apply (Rmult_eq_reg_r (2 * sqrt (2 * PI * sg ^ 2))); [|lra]. unfold Rdiv at 1. rewrite Rmult_assoc, Rinv_l by lra. rewrite Rmult_1_r.
      transitivity (2 * (sqrt (2 * PI * sg ^ 2) * sqrt (2 * PI * sg ^ 2)) * ((sg1 - sg) / sg)); [|ring]. rewrite QQ. field. lra. }
  pose proof (sqrt_lt_R0 _ Pp) as Qp.
  assert (D6 : dl (fun t => / sqrt (2 * PI * mix t sg sg1 ^ 2)) (/ sqrt (2 * PI * sg ^ 2) * - ((sg1 - sg) / sg))).
  { eapply dl_ext. 3: apply (dl_inv (fun t => sqrt (2 * PI * mix t sg sg1 ^ 2))); [cbv beta; rewrite S0; lra|exact D5].
    - intros z. reflexivity.
    - cbv beta. rewrite S0. field. split; lra. }
  eapply dl_ext. 3: apply (dl_mult_log (fun t => exp (- ((x - mix t mu mu1) ^ 2 / (2 * mix t sg sg1 ^ 2)))) (fun t => / sqrt (2 * PI * mix t sg sg1 ^ 2))
      ((x - mu) / sg ^ 2 * (mu1 - mu) + (x - mu) * (x - mu) / sg ^ 3 * (sg1 - sg)) (- ((sg1 - sg) / sg))).
  - intros z. reflexivity.
  - cbv beta. rewrite M0, S0. unfold normal, norm_slope, Rdiv. ring.
  - exact (dl_exp _ _ D4).
  - cbv beta. rewrite S0. exact D6.
Qed.

Lemma dl_prod (f : nat -> R -> R) (r : nat -> R) l : (forall k, In k l -> dl (f k) (f k 0 * r k)) ->
  dl (fun t => fold_right Rmult 1 (map (fun k => f k t) l)) (fold_right Rmult 1 (map (fun k => f k 0) l) * sumL l r).
Proof.
  induction l as [|k l IH]; intros H.
  - cbn. rewrite Rmult_0_r. apply dl_const.
  - cbn [map fold_right]. rewrite sumL_cons. apply (dl_mult_log (f k) (fun t => fold_right Rmult 1 (map (fun k => f k t) l))); [apply H; left; reflexivity|].
    apply IH. intros j I. apply H. right. exact I.
Qed.

Definition same_shape {A} (p q : list (list A)) : Prop := Forall2 (fun r r' => length r' = length r) p q.
Definition go_with (m : gohmm R) (A : list (list R)) (B : list (list (R * R))) (i : list R) : gohmm R := mkGO A B i (go_name m).
Lemma out_mix m A B i t s k : same_shape (go_out m) B ->
  mean (go_towards m A B i t) s k = mix t (mean m s k) (mean (go_with m A B i) s k) /\
  stddev (go_towards m A B i t) s k = mix t (stddev m s k) (stddev (go_with m A B i) s k).
Proof.
  intros F. pose proof (Forall2_len _ _ _ F) as L. unfold mean, stddev. cbn [go_towards go_with go_out].
  assert (Z : mix t 0 0 = 0) by (unfold mix; ring).
  destruct (Nat.lt_ge_cases s (length (go_out m))) as [Hs|Hs].
  - unfold mix_out. rewrite (nth_map_combine _ _ _ _ [] []) by assumption. cbn [fst snd].
    pose proof (Forall2_nth _ _ _ [] [] F s Hs) as Lr. cbv beta in Lr. destruct (Nat.lt_ge_cases k (length (nth s (go_out m) []))) as [Hk|Hk].
    + rewrite (nth_map_combine _ _ _ _ (0, 0) (0, 0)) by assumption. split; reflexivity.
    + rewrite !(nth_overflow _ (0, 0)) by (rewrite ?map_length, ?combine_length; lia). cbn. rewrite Z. split; reflexivity.
  - unfold mix_out. rewrite !(nth_overflow _ []) by (rewrite ?map_length, ?combine_length; lia). destruct k; cbn; rewrite Z; split; reflexivity.
Qed.
Lemma go_density_0 m A B i : same_shape (go_out m) B -> go_density (go_towards m A B i 0) = go_density m.
Proof.
  intros F. do 2 (apply functional_extensionality; intro). unfold go_density. f_equal. apply map_ext. intros k. destruct (out_mix m A B i 0 x0 k F) as [-> ->].
  f_equal; unfold mix; ring.
Qed.
Definition out_slope (m x : gohmm R) (s k : nat) : R -> R := norm_slope (mean m s k) (stddev m s k) (mean x s k - mean m s k) (stddev x s k - stddev m s k).

Notation go1 := (fun (_ : list (list R)) (_ : nat) => 1).
Lemma go_slope_eq d m set A B i : go_ok d m -> pos_sigma d m -> obs_dim d set -> Forall2 keeps (go_mat m) A -> same_shape (go_out m) B -> keeps (go_ini m) i ->
  go_slope set m A B i (row_slope (go_n m) (gIN m set) (vecR (go_ini m)) (vecR i)
    + (Sum (go_n m) (fun s => row_slope (go_n m) (gNUM m set s) (matR (go_mat m) s) (matR A s))
       + Sum (go_n m) (fun s => Sum d (fun k => gSUM m set s k (out_slope m (go_with m A B i) s k))))).
Proof.
  intros [W N] Sg Hd FA FB [Li [Ni Zi]]. pose proof (Forall2_len _ _ _ FA) as L. unfold go_slope.
  assert (Ei0 : vecR (mixv 0 (go_ini m) i) = vecR (go_ini m)) by (apply mixv_0; exact Li).
  assert (Ew0 : ew (fun tr : list (list R) => tr) (fun _ : list R => matR (mixm 0 (go_mat m) A)) (go_density (go_towards m A B i 0)) = gW m).
  { rewrite mixm_0 by exact FA. rewrite go_density_0 by exact FB. reflexivity. }
  eapply dl_ext. 3: apply (set_dl (go_n m) set (fun tr : list (list R) => tr) go1 (fun t => vecR (mixv t (go_ini m) i))
    (fun t _ => matR (mixm t (go_mat m) A)) (fun t => go_density (go_towards m A B i t)) (fun s => (vecR i s - vecR (go_ini m) s) / vecR (go_ini m) s)
    (fun _ s s' => (matR A s s' - matR (go_mat m) s s') / matR (go_mat m) s s')
    (fun o s => Sum (length o) (fun k => out_slope m (go_with m A B i) s k (nth k o 0)))).
  - intros t. cbv beta. apply set_ll_ext. intros tr c I. rewrite <- gP_path. unfold Pof, gW, go_n. cbn [go_mat go_towards go_ini].
    rewrite mixm_length by exact L. reflexivity.
  - f_equal; [|f_equal].
    + unfold slope_ini. rewrite Ew0, Ei0. reflexivity.
    + apply Sum_ext. intros s Hs. apply Sum_ext. intros s' Hs'.
      rewrite (slope_trans_const (go_n m) set (fun tr : list (list R) => tr) go1 (fun t => vecR (mixv t (go_ini m) i))
        (fun t _ => matR (mixm t (go_mat m) A)) (fun t => go_density (go_towards m A B i t)) (fun s s' => (matR A s s' - matR (go_mat m) s s') / matR (go_mat m) s s')).
      rewrite Ew0, Ei0. reflexivity.
    + apply Sum_ext. intros s Hs. unfold slope_emit. rewrite Ew0, Ei0.
      rewrite (psum_ext (go_n m) set (vecR (go_ini m)) (gW m) go1 _ (fun x t => Sum d (fun k => wsum (gam (go_n m) (vecR (go_ini m)) (gW m x) (fun _ => 1) s)
        (map (fun o => out_slope m (go_with m A B i) s k (nth k o 0)) x) * fac (go_n m) (vecR (go_ini m)) (gW m) go1 x t))).
      * rewrite psum_Sum. reflexivity.
      * intros x t I Px. rewrite Sum_scal_r. f_equal. rewrite <- wsum_Sum. f_equal. apply map_ext_in. intros o Io. rewrite (Hd x t I o Io). reflexivity.
  - intros x t I s Hs. lra.
  - rewrite Ei0. apply (g_oka m d W).
  - rewrite mixm_0 by exact FA. rewrite go_density_0 by exact FB. intros x t o I Io. exact (g_HA m d Sg set Hd N x t o I Io).
  - intros s Hs. rewrite Ei0. eapply dl_ext. 3: apply (dl_mix (vecR (go_ini m) s) (vecR i s)).
    + intros u. rewrite mixv_get by exact Li. reflexivity.
    + unfold mix. f_equal. ring.
    + apply Zi.
  - intros x t o s s' I Io Hs Hs'. rewrite mixm_get by exact FA. eapply dl_ext. 3: apply (dl_mix (matR (go_mat m) s s') (matR A s s')).
    + intros u. rewrite mixm_get by exact FA. reflexivity.
    + reflexivity.
    + apply keeps_mat. exact FA.
  - intros x t o s I Io Hs. unfold go_density at 2. 
    eapply dl_ext. 3: apply (dl_prod (fun k u => normal (mean (go_towards m A B i u) s k) (stddev (go_towards m A B i u) s k) (nth k o 0)) (fun k => out_slope m (go_with m A B i) s k (nth k o 0)) (seq 0 (length o))).
    + intros u. reflexivity.
    + reflexivity.
    + intros k Ik. apply in_seq in Ik. destruct (out_mix m A B i 0 s k FB) as [-> ->].
      eapply dl_ext. 3: apply (dl_normal (mean m s k) (stddev m s k) (mean (go_with m A B i) s k) (stddev (go_with m A B i) s k) (nth k o 0)).
      * intros u. cbv beta. destruct (out_mix m A B i u s k FB) as [-> ->]. reflexivity.
      * unfold out_slope. f_equal. f_equal; unfold mix; ring.
      * apply Sg; [exact Hs|]. rewrite (Hd x t I o Io) in Ik. lia.
  - intros u s Hs Z. rewrite Ei0 in Z. rewrite mixv_get by exact Li. rewrite (Zi s Z), Z. unfold mix; ring.
  - intros u x t o s s' I Io Hs Hs' Z. rewrite mixm_get in * by exact FA. rewrite go_density_0 in Z by exact FB. apply Rmult_integral in Z. destruct Z as [Z|Z].
    + pose proof (go_density_pos d m o s Sg Hs (Hd x t I o Io)). lra.
    + assert (Z' : matR (go_mat m) s s' = 0) by (unfold mix in Z; lra). rewrite (keeps_mat _ _ s s' FA Z'), Z'. unfold mix; ring.
Qed.

Lemma out_slope_eq m set x s k : 0 < stddev m s k ->
  gSUM m set s k (out_slope m x s k) =
    (mean x s k - mean m s k) / stddev m s k ^ 2 * (gSUM m set s k (fun y => y) - mean m s k * gDEN m set s) +
    (stddev x s k - stddev m s k) / stddev m s k ^ 3 * (gSUM m set s k (fun y => (y - mean m s k) * (y - mean m s k)) - stddev m s k ^ 2 * gDEN m set s).
Proof.
  intros P. set (mu := mean m s k) in *. set (sg := stddev m s k) in *.
  set (dm := mean x s k - mu). set (ds := stddev x s k - sg).
  rewrite (gSUM_ext m set s k _ (fun y => (y - mu) * (y - mu) * (ds / sg ^ 3) + (y * (dm / sg ^ 2) + (- mu * (dm / sg ^ 2) - ds / sg)))).
  - rewrite !gSUM_plus, !gSUM_scal, gSUM_const. field. lra.
  - intros y. unfold out_slope, norm_slope. fold mu sg dm ds. field. lra.
Qed.

Definition go_proper (m : gohmm R) : Prop :=
  nonneg_mat (go_mat m) /\ (forall r, In r (go_mat m) -> rsum r = 0 \/ rsum r = 1) /\ rsum (go_ini m) = 1.
Definition go_within (m : gohmm R) (A : list (list R)) (B : list (list (R * R))) (i : list R) : Prop :=
  Forall2 row_within (go_mat m) A /\ same_shape (go_out m) B /\ row_within (go_ini m) i.

Theorem C146_gohmm_stationary : forall (d : nat) (m : gohmm R) (p : nat) set (ll : R),
  wf_gohmm d m -> pos_sigma d m -> nonneg_mat (go_mat m) -> obs_dim d set -> pos_times set -> round_GoHMM p d set m = Ok (m, ll) ->
  forall A B i, go_within m A B i -> go_slope set m A B i 0.
Proof.
  intros d m p set ll W Sg N Hd HT E A B i (FA & FB & Fi).
  pose proof (go_slope_eq d m set A B i (conj W N) Sg Hd (within_keeps _ _ FA) FB (proj1 Fi)) as D.
  destruct (round_GoHMM_spec m d W Sg set Hd N p m ll E) as (_ & _ & Sq & Lo & Ro & Li & G & H1 & H2 & I & _ & X).
  pose proof (g_INtot m set HT X) as Tp.
  assert (Z1 : row_slope (go_n m) (gIN m set) (vecR (go_ini m)) (vecR i) = 0).
  { apply (row_flat (go_n m) (Sum (go_n m) (gIN m set))).
    - intros j Hj. specialize (I j Hj). change (vecR (go_ini m) j) with (vget (go_ini m) j). rewrite I. field. lra.
    - intros j Hj. apply Fi.
    - destruct Fi as [[Ls _] Rs]. rewrite !rsum_nth, Ls, Li in Rs. exact Rs. }
  assert (Z2 : Sum (go_n m) (fun s => row_slope (go_n m) (gNUM m set s) (matR (go_mat m) s) (matR A s)) = 0).
  { apply Sum_zero_ext. intros s Hs. apply (row_flat (go_n m) (gDEN m set s)).
    - apply est_fixed; [apply gDEN_sum; auto|intros; apply (gNUM_nonneg m d W Sg set Hd N HT); auto|intros s' Hs'; symmetry; apply (G s s' Hs Hs')].
    - intros s' Hs'. apply (keeps_mat _ _ s s' (within_keeps _ _ FA)).
    - apply keeps_sum; [exact FA|apply Sq|exact Hs]. }
  assert (Z3 : Sum (go_n m) (fun s => Sum d (fun k => gSUM m set s k (out_slope m (go_with m A B i) s k))) = 0).
  { apply Sum_zero_ext. intros s Hs. apply Sum_zero_ext. intros k Hk. pose proof (Sg s k Hs Hk) as P.
    destruct (Req_EM_T (gDEN m set s) 0) as [Z|Z]; [apply (gSUM_zero m d W Sg set Hd N HT); assumption|].
    specialize (H1 s k Hs Hk). specialize (H2 s k Hs Hk). destruct (Req_EM_T (gDEN m set s) 0); [contradiction|].
    rewrite out_slope_eq by exact P.
    assert (Q1 : gSUM m set s k (fun y => y) = mean m s k * gDEN m set s) by (rewrite H1; field; exact Z).
    assert (Dp : 0 < gDEN m set s) by (pose proof (gDEN_nonneg m d W Sg set Hd N HT s Hs); lra).
    assert (Q2 : gSUM m set s k (fun y => (y - mean m s k) * (y - mean m s k)) = stddev m s k ^ 2 * gDEN m set s).
    { rewrite H2. cbn [pow]. rewrite Rmult_1_r. rewrite sqrt_sqrt; [field; exact Z|]. apply Rmult_le_pos; [|apply Rlt_le, Rinv_0_lt_compat; exact Dp].
      apply (gSUM_nonneg m d W Sg set Hd N HT); [exact Hs|]. intros; apply Rle_0_sqr. }
    rewrite Q1, Q2. ring. }
  rewrite Z1, Z2, Z3 in D. rewrite !Rplus_0_r in D. exact D.
Qed.
Print Assumptions C146_gohmm_stationary.

(** Every state must be visited: see C75 for the others. *)
Theorem C146_gohmm_ascent : forall (d : nat) (m m' : gohmm R) (p : nat) set (ll : R),
  wf_gohmm d m -> pos_sigma d m -> go_proper m -> obs_dim d set -> pos_times set -> round_GoHMM p d set m = Ok (m', ll) ->
  (forall s, (s < go_n m)%nat -> set_expected (go_trace_density_move m) (go_expected_visits m s) set <> 0) ->
  go_within m (go_mat m') (go_out m') (go_ini m') /\
  exists g, go_slope set m (go_mat m') (go_out m') (go_ini m') g /\ 0 <= g /\ (m' <> m -> 0 < g).
Proof.
  intros d m m' p set ll W Sg (N & S1 & Si) Hd HT E Vis.
  destruct (round_GoHMM_spec m d W Sg set Hd N p m' ll E) as (Na & Nn & Sq & Lo & Ro & Li & G & H1 & H2 & I & _ & X).
  destruct (round_go_ok d m set p m' ll (conj W N) Sg Hd E HT) as ((W' & N') & _).
  pose proof W as (Sq0 & Lo0 & Ro0 & Li0 & Ni0).
  pose proof (g_INtot m set HT X) as Tp.
  assert (Dp : forall s, (s < go_n m)%nat -> 0 < gDEN m set s).
  { intros s Hs. pose proof (gDEN_nonneg m d W Sg set Hd N HT s Hs) as Dn. specialize (Vis s Hs). rewrite <- gDEN_path in Vis by exact Hs. lra. }
  assert (U1 : forall s, (s < go_n m)%nat -> Sum (go_n m) (matR (go_mat m) s) = 1).
  { intros s Hs. apply (used_row _ (gNUM m set s)).
    - intros j Hj. apply mget_nonneg; exact N.
    - intros j Hj. apply gNUM_zero.
    - pose proof (row_sum_Sum (go_mat m) (go_n m) s Sq0 Hs) as Q. change (Sum (go_n m) (matR (go_mat m) s)) with (Sum (go_n m) (mget (go_mat m) s)). rewrite <- Q. apply S1. apply nth_In. exact Hs.
    - rewrite <- gDEN_sum; auto. specialize (Dp s Hs). lra. }
  assert (FA : Forall2 row_within (go_mat m) (go_mat m')).
  { apply (row_within_nth (go_n m) (go_n m)); auto; try apply Sq0; try apply Sq.
    - intros s j Hs Hj Z. exact (g_zero' m set m' G s j Hs Hj Z).
    - intros s Hs. rewrite (g_row_sum' m d W set m' Sq G s Hs). destruct (Req_EM_T _ 0); [reflexivity|].
      pose proof (row_sum_Sum (go_mat m) (go_n m) s Sq0 Hs) as Q. rewrite Q. symmetry; apply U1; assumption. }
  assert (FB : same_shape (go_out m) (go_out m')).
  { apply (Forall2_of_nth _ _ _ [] []); [congruence|]. intros s Hs. rewrite (Ro (nth s (go_out m') [])), (Ro0 (nth s (go_out m) [])); [reflexivity|apply nth_In; lia|apply nth_In; lia]. }
  assert (Zi : forall s, (s < go_n m)%nat -> vecR (go_ini m) s = 0 -> gIN m set s = 0) by (intros s Hs Z; apply IN_zero; exact Z).
  assert (Fi : row_within (go_ini m) (go_ini m')).
  { split; [|rewrite Si; apply (g_ini_sum' m set HT m' X Li I)]. split; [congruence|]. split; [apply W'|].
    intros j Z. destruct (Nat.lt_ge_cases j (go_n m)) as [Hj|Hj]; [|unfold vecR; apply nth_overflow; lia].
    change (vget (go_ini m') j = 0). rewrite I by exact Hj. rewrite Zi by assumption. unfold Rdiv; ring. }
  split; [split; [exact FA|split; [exact FB|exact Fi]]|].
  eexists. split; [apply (go_slope_eq d); [split; assumption|exact Sg|exact Hd|apply within_keeps, FA|exact FB|apply Fi]|].
  destruct (rows_ascent (go_n m) (go_n m) (gDEN m set) (gNUM m set) (matR (go_mat m)) (matR (go_mat m'))) as [A1 A2].
  { intros; apply gDEN_sum; auto. } { intros; apply (gNUM_nonneg m d W Sg set Hd N HT); auto. } { intros; apply mget_nonneg; auto. } { intros; apply gNUM_zero; auto. } { intros; apply U1; assumption. } { exact G. }
  destruct (rows_ascent 1 (go_n m) (fun _ => Sum (go_n m) (gIN m set)) (fun _ => gIN m set) (fun _ => vecR (go_ini m)) (fun _ => vecR (go_ini m'))) as [C1 C2].
  { reflexivity. } { intros; apply (IN_nonneg (go_n m) set (vget (go_ini m)) (gW m) go1 HT); auto using (g_oka m d W). - intros; eapply g_okw; eauto. - intros; intros ? ?; lra. }
  { intros; apply vget_nonneg, W. } { intros; apply Zi; auto. }
  { intros _ _ _. rewrite rsum_nth, Li0 in Si. exact Si. }
  { intros _ j _ Hj. unfold est. destruct (Req_EM_T _ 0); [lra|]. apply I. exact Hj. }
  rewrite Sum_S in C1, C2. change (Sum 0 _) with 0 in C1, C2. rewrite Rplus_0_l in C1, C2.
  set (x := go_with m (go_mat m') (go_out m') (go_ini m')).
  assert (Cell : forall s k, (s < go_n m)%nat -> (k < d)%nat -> 0 <= gSUM m set s k (out_slope m x s k) /\
     (gSUM m set s k (out_slope m x s k) = 0 -> mean m' s k = mean m s k /\ stddev m' s k = stddev m s k)).
  { intros s k Hs Hk. pose proof (Sg s k Hs Hk) as P. pose proof (Dp s Hs) as D. rewrite out_slope_eq by exact P.
    change (mean x s k) with (mean m' s k). change (stddev x s k) with (stddev m' s k).
    specialize (H1 s k Hs Hk). specialize (H2 s k Hs Hk). destruct (Req_EM_T (gDEN m set s) 0); [lra|].
    assert (Q1 : gSUM m set s k (fun y => y) = mean m' s k * gDEN m set s) by (rewrite H1; field; lra).
    assert (Q2 : gSUM m set s k (fun y => (y - mean m s k) * (y - mean m s k)) = stddev m' s k ^ 2 * gDEN m set s).
    { rewrite H2. cbn [pow]. rewrite Rmult_1_r. rewrite sqrt_sqrt; [field; lra|]. apply Rmult_le_pos; [|apply Rlt_le, Rinv_0_lt_compat; exact D].
      apply (gSUM_nonneg m d W Sg set Hd N HT); [exact Hs|]. intros; apply Rle_0_sqr. }
    assert (Sp : 0 <= stddev m' s k) by (rewrite H2; apply sqrt_pos).
    rewrite Q1, Q2. set (mu := mean m s k) in *. set (sg := stddev m s k) in *. set (mu' := mean m' s k) in *. set (sg' := stddev m' s k) in *. set (D0 := gDEN m set s) in *.
    replace ((mu' - mu) / sg ^ 2 * (mu' * D0 - mu * D0) + (sg' - sg) / sg ^ 3 * (sg' ^ 2 * D0 - sg ^ 2 * D0))
      with ((mu' - mu) ^ 2 * (D0 / sg ^ 2) + (sg' - sg) ^ 2 * ((sg' + sg) * (D0 / sg ^ 3))) by (field; lra).
    assert (K1 : 0 < D0 / sg ^ 2) by (apply Rdiv_lt_0_compat; [exact D|apply pow_lt; exact P]).
    assert (K2 : 0 < (sg' + sg) * (D0 / sg ^ 3)) by (apply Rmult_lt_0_compat; [lra|]; apply Rdiv_lt_0_compat; [exact D|apply pow_lt; exact P]).
    assert (T1 : 0 <= (mu' - mu) ^ 2 * (D0 / sg ^ 2)) by (apply Rmult_le_pos; [apply pow2_ge_0|lra]).
    assert (T2 : 0 <= (sg' - sg) ^ 2 * ((sg' + sg) * (D0 / sg ^ 3))) by (apply Rmult_le_pos; [apply pow2_ge_0|lra]).
    split; [lra|]. intros Z. assert (Y1 : (mu' - mu) ^ 2 * (D0 / sg ^ 2) = 0) by lra. assert (Y2 : (sg' - sg) ^ 2 * ((sg' + sg) * (D0 / sg ^ 3)) = 0) by lra.
    apply Rmult_integral in Y1. apply Rmult_integral in Y2. split; [destruct Y1; nra|destruct Y2; nra]. }
  set (X1 := row_slope _ _ _ _) in *. set (X2 := Sum (go_n m) (fun s => row_slope (go_n m) _ _ _)) in *.
  set (Y := fun s k => gSUM m set s k (out_slope m x s k)) in *.
  change (0 <= X1 + (X2 + Sum (go_n m) (fun s => Sum d (Y s))) /\ (m' <> m -> 0 < X1 + (X2 + Sum (go_n m) (fun s => Sum d (Y s))))).
  assert (Yr : forall s, (s < go_n m)%nat -> 0 <= Sum d (Y s)) by (intros s Hs; apply Sum_nonneg; intros k Hk; apply (Cell s k Hs Hk)).
  pose proof (Sum_nonneg (go_n m) (fun s => Sum d (Y s)) Yr) as Y0.
  split; [lra|]. intros Ne. destruct (Rle_dec (X1 + (X2 + Sum (go_n m) (fun s => Sum d (Y s)))) 0) as [Z|Z]; [|lra]. exfalso. apply Ne.
  assert (Ma : go_mat m' = go_mat m) by (apply (mat_ext (go_n m)); [exact Sq|exact Sq0|apply A2; lra]).
  assert (Mo : go_out m' = go_out m).
  { apply (nth_ext _ _ [] []); [congruence|]. intros s Hs. rewrite Lo in Hs.
    assert (L1 : length (nth s (go_out m') []) = d) by (apply Ro, nth_In; lia).
    assert (L0 : length (nth s (go_out m) []) = d) by (apply Ro0, nth_In; lia).
    apply (nth_ext _ _ (0, 0) (0, 0)); [congruence|]. intros k Hk. rewrite L1 in Hk.
    destruct (Cell s k Hs Hk) as [_ Q]. destruct Q as [M1 M2].
    { apply (Sum_nonneg_zero d (Y s)); [intros j Hj; apply (Cell s j Hs Hj)| |exact Hk]. apply Req_le. apply (Sum_nonneg_zero (go_n m) (fun s => Sum d (Y s))); auto. lra. }
    unfold mean, stddev in M1, M2. rewrite (surjective_pairing (nth k (nth s (go_out m') []) (0, 0))), (surjective_pairing (nth k (nth s (go_out m) []) (0, 0))). congruence. }
  assert (Mi : go_ini m' = go_ini m).
  { apply (nth_ext _ _ 0 0); [congruence|]. intros s Hs. rewrite Li in Hs. apply (C2 ltac:(lra) 0%nat s); [lia|exact Hs]. }
  destruct m, m'. cbn in *. subst. reflexivity.
Qed.
Print Assumptions C146_gohmm_ascent.

Theorem C146_gohmm_fixed_iff_stationary : forall (d : nat) (m m' : gohmm R) (p : nat) set (ll : R),
  wf_gohmm d m -> pos_sigma d m -> go_proper m -> obs_dim d set -> pos_times set -> round_GoHMM p d set m = Ok (m', ll) ->
  (forall s, (s < go_n m)%nat -> set_expected (go_trace_density_move m) (go_expected_visits m s) set <> 0) ->
  (m' = m <-> forall A B i, go_within m A B i -> go_slope set m A B i 0).
Proof.
  intros d m m' p set ll W Sg Pr Hd HT E Vis. split.
  - intros -> . apply (C146_gohmm_stationary d m p set ll W Sg (proj1 Pr) Hd HT E).
  - intros H. destruct (C146_gohmm_ascent d m m' p set ll W Sg Pr Hd HT E Vis) as (F & g & Dg & _ & P).
    destruct (classic (m' = m)) as [Q|Q]; [exact Q|]. specialize (P Q). rewrite (slope_unique _ _ _ Dg (H _ _ _ F)) in P. lra.
Qed.
Print Assumptions C146_gohmm_fixed_iff_stationary.
