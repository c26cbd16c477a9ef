(** C146 for MCs, HMMs and MDPs: the models that a round of learning returns
    unchanged are the stationary points of the likelihood; from any other model,
    the likelihood rises in the direction of the model returned by the round. *)
From Coq Require Import String ZArith Bool Reals List Lia Lra Permutation FunctionalExtensionality Classical_Prop.
From Verif Require Import Num Py SNum SPath LSum MSet SSet LSet MModels MLik MBW LFB LEM SBW LBW LBWSet LBWMC SLik LPath LLik LLik2 LBWLoop LBWPath SExp LEMGen LBWHMM LBWMDP PLik LFit PBWMC PBWHMM PBWMDP SGain LGain PGain SGrad LGrad LGrad2.
Import ListNotations.
Local Open Scope R_scope.

Lemma mixm_0 p q : Forall2 keeps p q -> matR (mixm 0 p q) = matR p.
Proof. intros F. do 2 (apply functional_extensionality; intros). rewrite mixm_get by exact F. unfold mix. ring. Qed.
Lemma mixv_0 p q : length q = length p -> vecR (mixv 0 p q) = vecR p.
Proof. intros L. apply functional_extensionality; intros. rewrite mixv_get by exact L. unfold mix. ring. Qed.
Lemma dl_mix x y : (x = 0 -> y = 0) -> dl (fun t => mix t x y) (mix 0 x y * ((y - x) / x)).
Proof. apply dl_blend_log. Qed.

(** ** MC *)
Lemma mc_ws_ew (m : mc R) : mc_ws m = ew (fun tr => tr) (fun _ : string => matR (mc_mat m)) (is_label (mc_lab m)).
Proof. apply functional_extensionality. intros tr. rewrite mc_ws_wts. reflexivity. Qed.
Lemma mc_slope_eq m set A : mc_ok m -> Forall2 keeps (mc_mat m) A ->
  mc_slope set m A (Sum (mc_n m) (fun s => row_slope (mc_n m) (mcNUM m set s) (matR (mc_mat m) s) (matR A s))).
Proof.
  intros [W N] F. pose proof (Forall2_len _ _ _ F) as L. unfold mc_slope.
  eapply dl_ext. 3: apply (set_dl (mc_n m) set (fun tr : list string => tr) (fun _ _ => 1) (fun _ => vecR (mc_ini m))
    (fun t _ => matR (mixm t (mc_mat m) A)) (fun _ => is_label (mc_lab m)) (fun _ => 0)
    (fun _ s s' => (matR A s s' - matR (mc_mat m) s s') / matR (mc_mat m) s s') (fun _ _ => 0)).
  - intros t. cbv beta. apply set_ll_ext. intros tr c I. rewrite <- mcP_path. unfold mcP, Pof. rewrite mc_ws_ew. unfold mc_n. cbn [mc_mat mc_towards mc_ini mc_lab].
    rewrite mixm_length by exact L. reflexivity.
  - rewrite slope_ini_zero. rewrite (Sum_ext (mc_n m) (slope_emit _ _ _ _ _ _ _ _) (fun _ => 0)) by (intros; apply slope_emit_zero).
    rewrite Sum_zero, Rplus_0_l, Rplus_0_r. apply Sum_ext. intros s Hs. apply Sum_ext. intros s' Hs'.
    rewrite (slope_trans_const (mc_n m) set (fun tr : list string => tr) (fun _ _ => 1) (fun _ => vecR (mc_ini m))
      (fun t _ => matR (mixm t (mc_mat m) A)) (fun _ => is_label (mc_lab m)) (fun s s' => (matR A s s' - matR (mc_mat m) s s') / matR (mc_mat m) s s')).
    f_equal. rewrite mixm_0 by exact F. unfold mcNUM. rewrite mc_ws_ew. reflexivity.
  - intros x t I s Hs. lra.
  - intros s Hs. apply vget_nonneg. apply W.
  - intros x t o I Io. split; [|intros s Hs; destruct (is_label_01 (mc_lab m) o s) as [-> | ->]; lra].
    rewrite mixm_0 by exact F. intros s s' Hs Hs'. apply mget_nonneg. exact N.
  - intros s Hs. rewrite Rmult_0_r. apply dl_const.
  - intros x t o s s' I Io Hs Hs'. rewrite mixm_get by exact F. eapply dl_ext. 3: apply (dl_mix (matR (mc_mat m) s s') (matR A s s')).
    + intros u. rewrite mixm_get by exact F. reflexivity.
    + reflexivity.
    + apply keeps_mat. exact F.
  - intros x t o s I Io Hs. rewrite Rmult_0_r. apply dl_const.
  - auto.
  - intros u x t o s s' I Io Hs Hs' Z. rewrite mixm_get in * by exact F. apply Rmult_integral in Z. destruct Z as [Z|Z]; [rewrite Z; ring|].
    assert (Z' : matR (mc_mat m) s s' = 0) by (unfold mix in Z; lra). rewrite (keeps_mat _ _ s s' F Z'), Z'. unfold mix; ring.
Qed.
Lemma slope_unique f g h : dl f g -> dl f h -> g = h.
Proof. intros A B. exact (uniqueness_limite f 0 g h A B). Qed.

(** Nothing changes to first order around a model left alone by the round: here
    any change to parameters that give the same totals and use no entry at 0. *)
Theorem C146_mc_stationary : forall (m : mc R) (p : nat) (set : list (list string * Z)) (ll : R),
  wf_mc m -> nonneg_mat (mc_mat m) -> pos_times set -> round_MC p set m = Ok (m, ll) ->
  forall A, Forall2 row_within (mc_mat m) A -> mc_slope set m A 0.
Proof.
  intros m p set ll W N HT E A F. pose proof (mc_slope_eq m set A (conj W N) (within_keeps _ _ F)) as D.
  destruct (round_MC_spec m W set N (proj2 (proj2 (proj2 W))) p m ll E) as (_ & _ & _ & _ & Sq & G & _).
  replace (Sum _ _) with 0 in D; [exact D|]. symmetry. apply Sum_zero_ext. intros s Hs.
  apply (row_flat (mc_n m) (mcDEN m set s)).
  - apply (est_fixed (mc_n m)).
    + apply mcDEN_sum; auto.
    + intros j Hj. apply mcNUM_nonneg; auto. apply W.
    + intros j Hj. symmetry. apply (G s j Hs Hj).
  - intros j Hj Z. apply (keeps_mat _ _ s j (within_keeps _ _ F) Z).
  - apply (keeps_sum (mc_n m) _ _ s F); [apply W|exact Hs].
Qed.
Print Assumptions C146_mc_stationary.

Lemma row_within_nth n k (p q : list (list R)) : length p = n -> length q = n -> (forall r, In r p -> length r = k) -> (forall r, In r q -> length r = k) ->
  nonneg_mat q -> (forall s j, (s < n)%nat -> (j < k)%nat -> matR p s j = 0 -> matR q s j = 0) ->
  (forall s, (s < n)%nat -> rsum (nth s q []) = rsum (nth s p [])) -> Forall2 row_within p q.
Proof.
  intros Lp Lq Rp Rq N Z S. apply (Forall2_of_nth _ _ _ [] []); [congruence|]. intros s Hs. rewrite Lp in Hs.
  assert (Ip : In (nth s p []) p) by (apply nth_In; lia). assert (Iq : In (nth s q []) q) by (apply nth_In; lia).
  split; [|apply S; exact Hs]. split; [rewrite (Rp _ Ip), (Rq _ Iq); reflexivity|]. split; [apply N; exact Iq|].
  intros j Zj. destruct (Nat.lt_ge_cases j k) as [Hj|Hj]; [apply (Z s j Hs Hj); exact Zj|]. unfold vecR. rewrite nth_overflow; [reflexivity|]. rewrite (Rq _ Iq). exact Hj.
Qed.

(** The round moves in a direction in which the likelihood rises, strictly
    unless the round does not move. *)
Theorem C146_mc_ascent : forall (m m' : mc R) (p : nat) (set : list (list string * Z)) (ll : R),
  wf_mc m -> stochastic01 (mc_mat m) -> pos_times set -> round_MC p set m = Ok (m', ll) ->
  Forall2 row_within (mc_mat m) (mc_mat m') /\
  exists g, mc_slope set m (mc_mat m') g /\ 0 <= g /\ (m' <> m -> 0 < g).
Proof.
  intros m m' p set ll W [N S01] HT E.
  destruct (round_MC_spec m W set N (proj2 (proj2 (proj2 W))) p m' ll E) as (A & B & C & D & Sq & G & L & _).
  assert (Ns : forall s s', (s < mc_n m)%nat -> (s' < mc_n m)%nat -> 0 <= mcNUM m set s s') by (intros; apply mcNUM_nonneg; auto; apply W).
  assert (S1 : forall s, (s < mc_n m)%nat -> mcDEN m set s <> 0 -> rsum (nth s (mc_mat m) []) = 1).
  { intros s Hs Z. destruct (S01 (nth s (mc_mat m) [])) as [S0|S1]; [apply nth_In; exact Hs| |exact S1]. exfalso. apply Z.
    rewrite mcDEN_sum by exact Hs. apply Sum_zero_ext. intros j Hj. apply mcNUM_zero. rewrite (row_sum_Sum _ (mc_n m)) in S0 by (auto; apply W).
    apply (Sum_nonneg_zero (mc_n m) (mget (mc_mat m) s)); auto; [intros; apply mget_nonneg; exact N|lra]. }
  assert (F : Forall2 row_within (mc_mat m) (mc_mat m')).
  { apply (row_within_nth (mc_n m) (mc_n m)); auto; try apply W; try apply Sq.
    - apply (mc_nonneg_mat' m set N (proj2 (proj2 (proj2 W))) HT m' Sq G).
    - intros s j Hs Hj Z. apply (mc_zero' m set m' G s j Hs Hj Z).
    - intros s Hs. rewrite (mc_row_sum' m W set m' Sq G s Hs). destruct (Req_EM_T _ 0); [reflexivity|]. symmetry; apply S1; assumption. }
  split; [exact F|]. eexists. split; [apply mc_slope_eq; [split; assumption|apply within_keeps, F]|].
  assert (R1 : forall s, (s < mc_n m)%nat -> row_slope (mc_n m) (mcNUM m set s) (matR (mc_mat m) s) (matR (mc_mat m') s)
    = row_slope (mc_n m) (mcNUM m set s) (matR (mc_mat m) s) (est (mcDEN m set s) (mcNUM m set s) (matR (mc_mat m) s))).
  { intros s Hs. apply Sum_ext. intros j Hj. change (matR (mc_mat m') s j) with (mget (mc_mat m') s j). rewrite G by assumption. reflexivity. }
  rewrite (Sum_ext _ _ _ R1).
  assert (R2 : forall s, (s < mc_n m)%nat -> 0 <= row_slope (mc_n m) (mcNUM m set s) (matR (mc_mat m) s) (est (mcDEN m set s) (mcNUM m set s) (matR (mc_mat m) s)) /\
    (row_slope (mc_n m) (mcNUM m set s) (matR (mc_mat m) s) (est (mcDEN m set s) (mcNUM m set s) (matR (mc_mat m) s)) = 0 ->
     forall j, (j < mc_n m)%nat -> est (mcDEN m set s) (mcNUM m set s) (matR (mc_mat m) s) j = matR (mc_mat m) s j)).
  { intros s Hs. apply row_ascent; auto.
    - apply mcDEN_sum; exact Hs.
    - intros j Hj. apply mget_nonneg; exact N.
    - intros j Hj Z. apply mcNUM_zero. exact Z.
    - intros Z. rewrite <- (S1 s Hs Z), (row_sum_Sum _ (mc_n m)) by (auto; apply W). reflexivity. }
  set (X := Sum (mc_n m) _). assert (X0 : 0 <= X) by (apply Sum_nonneg; intros s Hs; apply (R2 s Hs)).
  split; [exact X0|]. intros Ne. destruct (Req_dec X 0) as [Z|Z]; [|lra]. exfalso. apply Ne.
  assert (Ma : mc_mat m' = mc_mat m).
  { apply (mat_ext (mc_n m)); [exact Sq|apply W|]. intros s s' Hs Hs'. change (mget (mc_mat m') s s' = matR (mc_mat m) s s'). rewrite G by assumption.
    apply (R2 s Hs); [|exact Hs']. apply (Sum_nonneg_zero (mc_n m) (fun s => row_slope (mc_n m) (mcNUM m set s) (matR (mc_mat m) s) (est (mcDEN m set s) (mcNUM m set s) (matR (mc_mat m) s)))); auto.
    - intros i Hi. apply (R2 i Hi).
    - fold X. lra. }
  destruct m, m'. cbn in *. subst. reflexivity.
Qed.
Print Assumptions C146_mc_ascent.

Theorem C146_mc_fixed_iff_stationary : forall (m m' : mc R) (p : nat) (set : list (list string * Z)) (ll : R),
  wf_mc m -> stochastic01 (mc_mat m) -> pos_times set -> round_MC p set m = Ok (m', ll) ->
  (m' = m <-> forall A, Forall2 row_within (mc_mat m) A -> mc_slope set m A 0).
Proof.
  intros m m' p set ll W S HT E. split.
  - intros -> . apply (C146_mc_stationary m p set ll W (proj1 S) HT E).
  - intros H. destruct (C146_mc_ascent m m' p set ll W S HT E) as [F [g [D [_ P]]]].
    assert (Dec : m' = m \/ m' <> m).
    { destruct (C145_mc_strict m m' p set ll W) as [Q|Q]; auto.
      - split; [apply S|]. intros r Ir. destruct S as [_ S]. destruct (S r Ir); lra.
      - right. intros ->. lra. }
    destruct Dec as [Q|Q]; [exact Q|]. specialize (P Q). rewrite (slope_unique _ _ _ D (H _ F)) in P. lra.
Qed.
Print Assumptions C146_mc_fixed_iff_stationary.

(** ** HMM *)
Definition hmm_with (m : hmm R) (A B : list (list R)) (i : list R) : hmm R := mkHMM A B (hmm_alph m) i (hmm_name m).
Lemma emit_mix m A B i t o s : Forall2 keeps (hmm_out m) B ->
  emit (hmm_towards m A B i t) o s = mix t (emit m o s) (emit (hmm_with m A B i) o s).
Proof.
  intros F. unfold emit. cbn [hmm_alph hmm_out hmm_towards hmm_with]. unfold mix. rewrite <- !Sum_scal_l, <- Sum_plus. apply Sum_ext. intros j Hj.
  destruct (String.eqb _ o); [|ring]. rewrite mixm_get by exact F. reflexivity.
Qed.
Lemma emit_with_zero m A B i o s : wf_hmm m -> Forall2 keeps (hmm_out m) B -> emit m o s = 0 -> emit (hmm_with m A B i) o s = 0.
Proof.
  intros W F Z. destruct (in_dec String.string_dec o (hmm_alph m)) as [K|K]; [|apply emit_out; exact K].
  apply (In_nth _ _ EmptyString) in K. destruct K as [j [Hj <-]]. rewrite emit_nth in Z by (auto; apply W).
  pose proof (emit_nth (hmm_with m A B i) j s) as E. cbn [hmm_with hmm_alph hmm_out] in E. rewrite E by (auto; apply W). apply (keeps_mat _ _ s j F Z).
Qed.
Lemma hmm_slope_eq m set A B i : hmm_ok m -> Forall2 keeps (hmm_mat m) A -> Forall2 keeps (hmm_out m) B -> keeps (hmm_ini m) i ->
  hmm_slope set m A B i (row_slope (hmm_n m) (hIN m set) (vecR (hmm_ini m)) (vecR i)
    + (Sum (hmm_n m) (fun s => row_slope (hmm_n m) (hNUM m set s) (matR (hmm_mat m) s) (matR A s))
       + Sum (hmm_n m) (fun s => row_slope (length (hmm_alph m)) (hNB m set s) (matR (hmm_out m) s) (matR B s)))).
Proof.
  intros [W N] FA FB [Li [Ni Zi]]. pose proof (Forall2_len _ _ _ FA) as L. unfold hmm_slope.
  assert (Eh0 : hW m = ew (fun tr : list string => tr) (fun _ => matR (mixm 0 (hmm_mat m) A)) (emit (hmm_towards m A B i 0))).
  { unfold hW. rewrite mixm_0 by exact FA. f_equal. do 2 (apply functional_extensionality; intro). rewrite emit_mix by exact FB. unfold mix. ring. }
  assert (Ei0 : vecR (mixv 0 (hmm_ini m) i) = vecR (hmm_ini m)) by (apply mixv_0; exact Li).
  eapply dl_ext. 3: apply (set_dl (hmm_n m) set (fun tr : list string => tr) (fun _ _ => 1) (fun t => vecR (mixv t (hmm_ini m) i))
    (fun t _ => matR (mixm t (hmm_mat m) A)) (fun t => emit (hmm_towards m A B i t)) (fun s => (vecR i s - vecR (hmm_ini m) s) / vecR (hmm_ini m) s)
    (fun _ s s' => (matR A s s' - matR (hmm_mat m) s s') / matR (hmm_mat m) s s')
    (fun o s => (emit (hmm_with m A B i) o s - emit m o s) / emit m o s)).
  - intros t. cbv beta. apply set_ll_ext. intros tr c I. rewrite <- hP_path. unfold hP, Pof, hW, hmm_n. cbn [hmm_mat hmm_towards hmm_ini hmm_alph].
    rewrite mixm_length by exact L. reflexivity.
  - f_equal; [|f_equal].
    + unfold slope_ini. rewrite <- Eh0. rewrite Ei0. reflexivity.
    + apply Sum_ext. intros s Hs. apply Sum_ext. intros s' Hs'.
      rewrite (slope_trans_const (hmm_n m) set (fun tr : list string => tr) (fun _ _ => 1) (fun t => vecR (mixv t (hmm_ini m) i))
        (fun t _ => matR (mixm t (hmm_mat m) A)) (fun t => emit (hmm_towards m A B i t)) (fun s s' => (matR A s s' - matR (hmm_mat m) s s') / matR (hmm_mat m) s s')).
      rewrite <- Eh0, Ei0. reflexivity.
    + apply Sum_ext. intros s Hs. unfold slope_emit. rewrite <- Eh0, Ei0.
      etransitivity; [exact (hGA_letters m W set N (fun o => (emit (hmm_with m A B i) o s - emit m o s) / emit m o s) s Hs)|].
      apply Sum_ext. intros j Hj. rewrite emit_nth by (auto; apply W).
      pose proof (emit_nth (hmm_with m A B i) j s) as E. cbn [hmm_with hmm_alph hmm_out] in E. rewrite E by (auto; apply W). reflexivity.
  - intros x t I s Hs. lra.
  - rewrite Ei0. intros s Hs. apply vget_nonneg. apply W.
  - intros x t o I Io. rewrite mixm_0 by exact FA. split; [intros s s' Hs Hs'; apply mget_nonneg; apply N|].
    intros s Hs. rewrite emit_mix by exact FB. pose proof (emit_nonneg' m o s (proj2 N)). unfold mix. lra.
  - intros s Hs. rewrite Ei0. eapply dl_ext. 3: apply (dl_mix (vecR (hmm_ini m) s) (vecR i s)).
    + intros u. rewrite mixv_get by exact Li. reflexivity.
    + unfold mix. f_equal. ring.
    + apply Zi.
  - intros x t o s s' I Io Hs Hs'. rewrite mixm_get by exact FA. eapply dl_ext. 3: apply (dl_mix (matR (hmm_mat m) s s') (matR A s s')).
    + intros u. rewrite mixm_get by exact FA. reflexivity.
    + reflexivity.
    + apply keeps_mat. exact FA.
  - intros x t o s I Io Hs. rewrite emit_mix by exact FB. eapply dl_ext. 3: apply (dl_mix (emit m o s) (emit (hmm_with m A B i) o s)).
    + intros u. rewrite emit_mix by exact FB. reflexivity.
    + reflexivity.
    + intros Z. apply emit_with_zero; assumption.
  - intros u s Hs Z. rewrite Ei0 in Z. rewrite mixv_get by exact Li. rewrite (Zi s Z), Z. unfold mix; ring.
  - intros u x t o s s' I Io Hs Hs' Z. rewrite mixm_get in * by exact FA. rewrite emit_mix in * by exact FB. apply Rmult_integral in Z. destruct Z as [Z|Z].
    + assert (Z' : emit m o s = 0) by (unfold mix in Z; lra). rewrite (emit_with_zero m A B i o s W FB Z'), Z'. unfold mix; ring.
    + assert (Z' : matR (hmm_mat m) s s' = 0) by (unfold mix in Z; lra). rewrite (keeps_mat _ _ s s' FA Z'), Z'. unfold mix; ring.
Qed.

Lemma hIN_nonneg m set s : hmm_ok m -> pos_times set -> (s < hmm_n m)%nat -> 0 <= hIN m set s.
Proof.
  intros [W N] HT Hs. apply IN_nonneg; auto.
  - intros; eapply (h_okw m set N); eauto.
  - intros x t I s' Hs'. lra.
  - apply (h_oka m W).
Qed.
Theorem C146_hmm_stationary : forall (m : hmm R) (p : nat) (set : list (list string * Z)) (ll : R),
  wf_hmm m -> nonneg_hmm m -> pos_times set -> round_HMM p set m = Ok (m, ll) ->
  forall A B i, Forall2 row_within (hmm_mat m) A -> Forall2 row_within (hmm_out m) B -> row_within (hmm_ini m) i -> hmm_slope set m A B i 0.
Proof.
  intros m p set ll W N HT E A B i FA FB [Ki Si].
  pose proof (hmm_slope_eq m set A B i (conj W N) (within_keeps _ _ FA) (within_keeps _ _ FB) Ki) as D.
  destruct (round_HMM_spec m W set N p m ll E) as (_ & _ & _ & Sq & Lo & Ro & Li & G & H & I & _ & X).
  assert (Z1 : row_slope (hmm_n m) (hIN m set) (vecR (hmm_ini m)) (vecR i) = 0).
  { apply (row_flat (hmm_n m) (Sum (hmm_n m) (hIN m set))).
    - intros j Hj. change (vecR (hmm_ini m) j) with (vget (hmm_ini m) j). rewrite (I j Hj) at 1. field. pose proof (h_INtot m set HT X). lra.
    - intros j Hj. apply Ki.
    - rewrite !rsum_nth, (proj1 Ki), Li in Si. exact Si. }
  rewrite Z1 in D. rewrite (Sum_zero_ext (hmm_n m) (fun s => row_slope (hmm_n m) _ _ _)) in D.
  - rewrite (Sum_zero_ext (hmm_n m)) in D; [rewrite !Rplus_0_r in D; exact D|]. intros s Hs. apply (row_flat _ (hDEN m set s)).
    + apply est_fixed; [apply hDEN_letters; auto|intros; apply hNB_nonneg; auto|intros j Hj; symmetry; apply (H s j Hs Hj)].
    + intros j Hj. apply (keeps_mat _ _ s j (within_keeps _ _ FB)).
    + apply (keeps_sum _ _ _ s FB Ro). rewrite Lo; exact Hs.
  - intros s Hs. apply (row_flat _ (hDEN m set s)).
    + apply est_fixed; [apply hDEN_sum; auto|intros; apply hNUM_nonneg; auto|intros j Hj; symmetry; apply (G s j Hs Hj)].
    + intros j Hj. apply (keeps_mat _ _ s j (within_keeps _ _ FA)).
    + apply (keeps_sum _ _ _ s FA (proj2 Sq)). exact Hs.
Qed.
Print Assumptions C146_hmm_stationary.

Lemma rows_ascent ns k (D : nat -> R) (N p q : nat -> nat -> R) :
  (forall s, (s < ns)%nat -> D s = Sum k (N s)) -> (forall s j, (s < ns)%nat -> (j < k)%nat -> 0 <= N s j) ->
  (forall s j, (s < ns)%nat -> (j < k)%nat -> 0 <= p s j) -> (forall s j, (s < ns)%nat -> (j < k)%nat -> p s j = 0 -> N s j = 0) ->
  (forall s, (s < ns)%nat -> D s <> 0 -> Sum k (p s) = 1) -> (forall s j, (s < ns)%nat -> (j < k)%nat -> q s j = est (D s) (N s) (p s) j) ->
  0 <= Sum ns (fun s => row_slope k (N s) (p s) (q s)) /\
  (Sum ns (fun s => row_slope k (N s) (p s) (q s)) <= 0 -> forall s j, (s < ns)%nat -> (j < k)%nat -> q s j = p s j).
Proof.
  intros HD HN Hp HZ HS Hq.
  assert (R2 : forall s, (s < ns)%nat -> 0 <= row_slope k (N s) (p s) (q s) /\ (row_slope k (N s) (p s) (q s) = 0 -> forall j, (j < k)%nat -> q s j = p s j)).
  { intros s Hs. assert (R1 : row_slope k (N s) (p s) (q s) = row_slope k (N s) (p s) (est (D s) (N s) (p s))) by (apply Sum_ext; intros j Hj; rewrite Hq by assumption; reflexivity).
    rewrite R1. destruct (row_ascent k (D s) (N s) (p s)) as [A B]; auto. split; [exact A|]. intros Z j Hj. rewrite Hq by assumption. apply B; assumption. }
  split; [apply Sum_nonneg; intros s Hs; apply (R2 s Hs)|]. intros Z s j Hs Hj. apply (R2 s Hs); [|exact Hj].
  apply (Sum_nonneg_zero ns (fun s => row_slope k (N s) (p s) (q s))); auto. intros i Hi. apply (R2 i Hi).
Qed.
(** A row that sums to 0 or 1 and is used sums to 1. *)
Lemma used_row k (N p : nat -> R) : (forall j, (j < k)%nat -> 0 <= p j) -> (forall j, (j < k)%nat -> p j = 0 -> N j = 0) ->
  Sum k p = 0 \/ Sum k p = 1 -> Sum k N <> 0 -> Sum k p = 1.
Proof.
  intros Hp HZ [S0|S1] Z; [|exact S1]. exfalso. apply Z. apply Sum_zero_ext. intros j Hj. apply HZ; [exact Hj|].
  apply (Sum_nonneg_zero k p); auto. lra.
Qed.

(** Rows and outputs that are distributions (or null), initial distribution. *)
Definition hmm_proper (m : hmm R) : Prop := stochastic01 (hmm_mat m) /\ stochastic01 (hmm_out m) /\ rsum (hmm_ini m) = 1.
Theorem C146_hmm_ascent : forall (m m' : hmm R) (p : nat) (set : list (list string * Z)) (ll : R),
  wf_hmm m -> hmm_proper m -> pos_times set -> round_HMM p set m = Ok (m', ll) ->
  Forall2 row_within (hmm_mat m) (hmm_mat m') /\ Forall2 row_within (hmm_out m) (hmm_out m') /\ row_within (hmm_ini m) (hmm_ini m') /\
  exists g, hmm_slope set m (hmm_mat m') (hmm_out m') (hmm_ini m') g /\ 0 <= g /\ (m' <> m -> 0 < g).
Proof.
  intros m m' p set ll W ([N1 S1] & [N2 S2] & Si) HT E. assert (N : nonneg_hmm m) by (split; assumption).
  destruct (round_HMM_spec m W set N p m' ll E) as (Al & Na & Nn & Sq & Lo & Ro & Li & G & H & I & _ & X).
  destruct (round_hmm_ok m set p m' ll (conj W N) E HT) as [[W' [N1' N2']] _].
  assert (Lo0 : length (hmm_out m) = hmm_n m) by apply W. assert (Ro0 : forall r, In r (hmm_out m) -> length r = length (hmm_alph m)) by apply W.
  assert (Li0 : length (hmm_ini m) = hmm_n m) by apply W.
  pose proof (h_INtot m set HT X) as Tp.
  assert (U1 : forall s, (s < hmm_n m)%nat -> hDEN m set s <> 0 -> Sum (hmm_n m) (matR (hmm_mat m) s) = 1).
  { intros s Hs Z. apply (used_row _ (hNUM m set s)).
    - intros j Hj. apply mget_nonneg; exact N1.
    - intros j Hj. apply hNUM_zero.
    - pose proof (row_sum_Sum (hmm_mat m) (hmm_n m) s (proj1 W) Hs) as Q. change (Sum (hmm_n m) (matR (hmm_mat m) s)) with (Sum (hmm_n m) (mget (hmm_mat m) s)). rewrite <- Q. apply S1. apply nth_In. exact Hs.
    - rewrite <- hDEN_sum; auto. }
  assert (O1 : forall x s, (s < length (hmm_out x))%nat -> (forall r, In r (hmm_out x) -> length r = length (hmm_alph m)) -> rsum (nth s (hmm_out x) []) = Sum (length (hmm_alph m)) (matR (hmm_out x) s)).
  { intros x s Hs Hr. apply (out_row_sum m x s Hs Hr). }
  assert (U2 : forall s, (s < hmm_n m)%nat -> hDEN m set s <> 0 -> Sum (length (hmm_alph m)) (matR (hmm_out m) s) = 1).
  { intros s Hs Z. apply (used_row _ (hNB m set s)).
    - intros j Hj. apply mget_nonneg; exact N2.
    - intros j Hj. apply hNB_zero; auto.
    - rewrite <- O1 by (auto; lia). apply S2. apply nth_In. lia.
    - rewrite <- hDEN_letters; auto. }
  assert (FA : Forall2 row_within (hmm_mat m) (hmm_mat m')).
  { apply (row_within_nth (hmm_n m) (hmm_n m)); auto; try apply W; try apply Sq.
    - intros s j Hs Hj Z. exact (h_zero' m set m' G s j Hs Hj Z).
    - intros s Hs. rewrite (h_row_sum' m W set m' Sq G s Hs). destruct (Req_EM_T _ 0); [reflexivity|].
      pose proof (row_sum_Sum (hmm_mat m) (hmm_n m) s (proj1 W) Hs) as Q. rewrite Q. symmetry; apply U1; assumption. }
  assert (FB : Forall2 row_within (hmm_out m) (hmm_out m')).
  { apply (row_within_nth (hmm_n m) (length (hmm_alph m))); auto.
    - intros s j Hs Hj Z. exact (h_out_zero' m W set m' H s j Hs Hj Z).
    - intros s Hs. rewrite (h_out_sum' m W set N m' Nn Lo Ro Li H s Hs). destruct (Req_EM_T _ 0); [reflexivity|].
      rewrite O1 by (auto; lia). symmetry; apply U2; assumption. }
  assert (Zi : forall s, (s < hmm_n m)%nat -> vecR (hmm_ini m) s = 0 -> hIN m set s = 0) by (intros s Hs Z; apply IN_zero; exact Z).
  assert (Fi : row_within (hmm_ini m) (hmm_ini m')).
  { split; [|rewrite Si; apply (h_ini_sum' m set HT m' X Li I)]. split; [congruence|]. split; [apply W'|].
    intros j Z. destruct (Nat.lt_ge_cases j (hmm_n m)) as [Hj|Hj]; [|unfold vecR; apply nth_overflow; lia].
    change (vget (hmm_ini m') j = 0). rewrite I by exact Hj. rewrite Zi by assumption. unfold Rdiv; ring. }
  split; [exact FA|]. split; [exact FB|]. split; [exact Fi|].
  eexists. split; [apply hmm_slope_eq; [split; assumption|apply within_keeps, FA|apply within_keeps, FB|apply Fi]|].
  destruct (rows_ascent (hmm_n m) (hmm_n m) (hDEN m set) (hNUM m set) (matR (hmm_mat m)) (matR (hmm_mat m'))) as [A1 A2].
  { intros; apply hDEN_sum; auto. } { intros; apply hNUM_nonneg; auto. } { intros; apply mget_nonneg; auto. } { intros; apply hNUM_zero; auto. } { exact U1. } { exact G. }
  destruct (rows_ascent (hmm_n m) (length (hmm_alph m)) (hDEN m set) (hNB m set) (matR (hmm_out m)) (matR (hmm_out m'))) as [B1 B2].
  { intros; apply hDEN_letters; auto. } { intros; apply hNB_nonneg; auto. } { intros; apply mget_nonneg; auto. } { intros; apply hNB_zero; auto. } { exact U2. } { exact H. }
  destruct (rows_ascent 1 (hmm_n m) (fun _ => Sum (hmm_n m) (hIN m set)) (fun _ => hIN m set) (fun _ => vecR (hmm_ini m)) (fun _ => vecR (hmm_ini m'))) as [C1 C2].
  { reflexivity. } { intros; apply hIN_nonneg; auto. split; assumption. } { intros; apply vget_nonneg, W. } { intros; apply Zi; auto. }
  { intros _ _ _. rewrite rsum_nth, Li0 in Si. exact Si. }
  { intros _ j _ Hj. unfold est. destruct (Req_EM_T _ 0); [lra|]. apply I. exact Hj. }
  rewrite Sum_S in C1, C2. change (Sum 0 _) with 0 in C1, C2. rewrite Rplus_0_l in C1, C2.
  set (X1 := row_slope _ _ _ _) in *. set (X2 := Sum (hmm_n m) (fun s => row_slope (hmm_n m) _ _ _)) in *. set (X3 := Sum (hmm_n m) (fun s => row_slope (length (hmm_alph m)) _ _ _)) in *.
  split; [lra|]. intros Ne. destruct (Rle_dec (X1 + (X2 + X3)) 0) as [Z|Z]; [|lra]. exfalso. apply Ne.
  assert (Ma : hmm_mat m' = hmm_mat m) by (apply (mat_ext (hmm_n m)); [exact Sq|apply W|apply A2; lra]).
  assert (Mo : hmm_out m' = hmm_out m) by (apply (rect_ext (hmm_n m) (length (hmm_alph m))); auto; apply B2; lra).
  assert (Mi : hmm_ini m' = hmm_ini m).
  { apply (nth_ext _ _ 0 0); [congruence|]. intros s Hs. rewrite Li in Hs. apply (C2 ltac:(lra) 0%nat s); [lia|exact Hs]. }
  destruct m, m'. cbn in *. subst. reflexivity.
Qed.
Print Assumptions C146_hmm_ascent.

Theorem C146_hmm_fixed_iff_stationary : forall (m m' : hmm R) (p : nat) (set : list (list string * Z)) (ll : R),
  wf_hmm m -> hmm_proper m -> pos_times set -> round_HMM p set m = Ok (m', ll) ->
  (m' = m <-> forall A B i, Forall2 row_within (hmm_mat m) A -> Forall2 row_within (hmm_out m) B -> row_within (hmm_ini m) i -> hmm_slope set m A B i 0).
Proof.
  intros m m' p set ll W S HT E. split.
  - intros -> . apply (C146_hmm_stationary m p set ll W (conj (proj1 (proj1 S)) (proj1 (proj1 (proj2 S)))) HT E).
  - intros H. destruct (C146_hmm_ascent m m' p set ll W S HT E) as (FA & FB & Fi & g & D & _ & P).
    destruct (classic (m' = m)) as [Q|Q]; [exact Q|]. specialize (P Q). rewrite (slope_unique _ _ _ D (H _ _ _ FA FB Fi)) in P. lra.
Qed.
Print Assumptions C146_hmm_fixed_iff_stationary.

(** ** MDP *)
Notation mix3 t p q := (map (fun rr => mixm t (fst rr) (snd rr)) (combine p q)).
Definition mdp_with (m : mdp R) (A : list (list (list R))) : mdp R := mkMDP A (mdp_lab m) (mdp_act m) (mdp_ini m) (mdp_name m).
Lemma tget_mix t p q s j s' : Forall2 (Forall2 keeps) p q -> tget (mix3 t p q) s j s' = mix t (tget p s j s') (tget q s j s').
Proof.
  intros F. pose proof (Forall2_len _ _ _ F) as L. unfold tget. destruct (Nat.lt_ge_cases s (length p)) as [Hs|Hs].
  - rewrite (nth_map_combine _ _ _ _ [] []) by auto. cbn [fst snd]. apply (mixm_get t (nth s p []) (nth s q []) j s'). apply (Forall2_nth _ _ _ [] [] F s Hs).
  - rewrite !nth_overflow by (rewrite ?map_length, ?combine_length; lia). unfold mget, vget, mix. nR. destruct j, s'; cbn; ring.
Qed.
Lemma keeps_tget p q s j s' : Forall2 (Forall2 keeps) p q -> tget p s j s' = 0 -> tget q s j s' = 0.
Proof.
  intros F Z. pose proof (Forall2_len _ _ _ F) as L. destruct (Nat.lt_ge_cases s (length p)) as [Hs|Hs].
  - apply (keeps_mat (nth s p []) (nth s q []) j s'); [apply (Forall2_nth _ _ _ [] [] F s Hs)|exact Z].
  - unfold tget. rewrite (nth_overflow q) by lia. destruct j, s'; reflexivity.
Qed.
Lemma act_mix m A t a s s' : Forall2 (Forall2 keeps) (mdp_mat m) A ->
  act_mat (mdp_towards m A t) a s s' = mix t (act_mat m a s s') (act_mat (mdp_with m A) a s s').
Proof.
  intros F. rewrite !act_letters. cbn [mdp_act mdp_mat mdp_towards mdp_with]. unfold mix. rewrite <- !Sum_scal_l, <- Sum_plus. apply Sum_ext. intros j Hj.
  rewrite tget_mix by exact F. unfold mix. ring.
Qed.
Lemma act_with_zero m A a s s' : wf_mdp m -> Forall2 (Forall2 keeps) (mdp_mat m) A -> act_mat m a s s' = 0 -> act_mat (mdp_with m A) a s s' = 0.
Proof.
  intros W F Z. destruct (in_dec String.string_dec a (mdp_act m)) as [K|K]; [|apply act_out; exact K].
  apply (In_nth _ _ EmptyString) in K. destruct K as [j [Hj <-]]. rewrite act_nth in Z by (auto; apply W).
  pose proof (act_nth (mdp_with m A) j s s') as E. cbn [mdp_with mdp_act mdp_mat] in E. rewrite E by (auto; apply W). apply (keeps_tget _ _ s j s' F Z).
Qed.
Lemma towards_wf m A t : wf_mdp m -> Forall2 (Forall2 keeps) (mdp_mat m) A -> mdp_n (mdp_towards m A t) = mdp_n m /\ wf_mdp (mdp_towards m A t).
Proof.
  intros (W1 & W2 & W3 & W4 & W5) F. pose proof (Forall2_len _ _ _ F) as L.
  assert (E : mdp_n (mdp_towards m A t) = mdp_n m) by (unfold mdp_n; cbn; rewrite map_length, combine_length; lia).
  split; [exact E|]. unfold wf_mdp. rewrite E. cbn [mdp_lab mdp_act mdp_ini mdp_towards mdp_mat]. split; [|auto].
  intros ra0 I. apply in_map_iff in I. destruct I as [[x y] [<- I]]. cbn [fst snd].
  apply (In_nth _ _ ([], [])) in I. destruct I as [i [Hi Ei]]. rewrite combine_length in Hi. rewrite combine_nth in Ei by auto. inversion Ei; subst x y.
  assert (K : In (nth i (mdp_mat m) []) (mdp_mat m)) by (apply nth_In; lia). destruct (W1 _ K) as [K1 K2].
  assert (Fi : Forall2 keeps (nth i (mdp_mat m) []) (nth i A [])) by (apply (Forall2_nth _ _ _ [] [] F); lia).
  split; [rewrite mixm_length; [exact K1|exact (Forall2_len _ _ _ Fi)]|]. apply (mixm_rows _ t _ _ Fi K2).
Qed.
Lemma mdp_slope_eq m set A : mdp_ok m -> alternating_set set -> Forall2 (Forall2 keeps) (mdp_mat m) A ->
  mdp_slope set m A (Sum (mdp_n m) (fun s => Sum (length (mdp_act m)) (fun j =>
    row_slope (mdp_n m) (dNUM m set s j) (tget (mdp_mat m) s j) (tget A s j)))).
Proof.
  intros [W N] Al F. pose proof (Forall2_len _ _ _ F) as L. unfold mdp_slope.
  assert (EA : dA (mdp_towards m A 0) = dA m).
  { apply functional_extensionality. intros [o a]. unfold dA. cbn [snd]. do 2 (apply functional_extensionality; intro). rewrite act_mix by exact F. unfold mix. ring. }
  eapply dl_ext. 3: apply (set_dl (mdp_n m) set pairs_of (df m) (fun _ => vecR (mdp_ini m))
    (fun t => dA (mdp_towards m A t)) (fun _ => db m) (fun _ => 0)
    (fun oa s s' => (act_mat (mdp_with m A) (snd oa) s s' - act_mat m (snd oa) s s') / act_mat m (snd oa) s s') (fun _ _ => 0)).
  - intros t. cbv beta. apply set_ll_ext. intros tr c I. destruct (towards_wf m A t W F) as [En Wt]. rewrite <- dP_path by (auto; exact (Al tr c I)).
    rewrite En. reflexivity.
  - rewrite slope_ini_zero. rewrite (Sum_ext (mdp_n m) (slope_emit _ _ _ _ _ _ _ _) (fun _ => 0)) by (intros; apply slope_emit_zero).
    rewrite Sum_zero, Rplus_0_l, Rplus_0_r. apply Sum_ext. intros s Hs. unfold row_slope. rewrite Sum_swap. apply Sum_ext. intros s' Hs'.
    unfold slope_trans. rewrite EA.
    etransitivity; [exact (dXI_letters m W set N (fun a => (act_mat (mdp_with m A) a s s' - act_mat m a s s') / act_mat m a s s') s s' Hs Hs')|].
    apply Sum_ext. intros j Hj. rewrite act_nth by (auto; apply W).
    pose proof (act_nth (mdp_with m A) j s s') as E. cbn [mdp_with mdp_act mdp_mat] in E. rewrite E by (auto; apply W). reflexivity.
  - intros x t I. apply (d_okf m set x t I).
  - apply (d_oka m W).
  - rewrite EA. apply (d_HA m set N).
  - intros s Hs. rewrite Rmult_0_r. apply dl_const.
  - intros x t o s s' I Io Hs Hs'. unfold dA. rewrite act_mix by exact F. eapply dl_ext. 3: apply (dl_mix (act_mat m (snd o) s s') (act_mat (mdp_with m A) (snd o) s s')).
    + intros u. rewrite act_mix by exact F. reflexivity.
    + reflexivity.
    + apply act_with_zero; assumption.
  - intros x t o s I Io Hs. rewrite Rmult_0_r. apply dl_const.
  - auto.
  - intros u x t o s s' I Io Hs Hs' Z. unfold dA in *. rewrite act_mix in * by exact F. apply Rmult_integral in Z. destruct Z as [Z|Z]; [rewrite Z; ring|].
    assert (Z' : act_mat m (snd o) s s' = 0) by (unfold mix in Z; lra). rewrite (act_with_zero m A _ s s' W F Z'), Z'. unfold mix; ring.
Qed.

Lemma within_keeps3 p q : Forall2 (Forall2 row_within) p q -> Forall2 (Forall2 keeps) p q.
Proof. induction 1; constructor; auto using within_keeps. Qed.
Theorem C146_mdp_stationary : forall (m : mdp R) (p : nat) (set : list (list string * Z)) (ll : R),
  wf_mdp m -> nonneg_mdp m -> pos_times set -> alternating_set set -> round_MDP p set m = Ok (m, ll) ->
  forall A, Forall2 (Forall2 row_within) (mdp_mat m) A -> mdp_slope set m A 0.
Proof.
  intros m p set ll W N HT Al E A F. pose proof (mdp_slope_eq m set A (conj W N) Al (within_keeps3 _ _ F)) as D.
  destruct (round_MDP_spec m W set N p m ll E) as (_ & _ & _ & _ & _ & Sh & G & _).
  replace (Sum _ _) with 0 in D; [exact D|]. symmetry. apply Sum_zero_ext. intros s Hs. apply Sum_zero_ext. intros j Hj.
  apply (row_flat (mdp_n m) (dDEN m set s j)).
  - apply est_fixed; [apply dDEN_sum; auto|intros; apply dNUM_nonneg; auto|intros s' Hs'; symmetry; apply (G s j s' Hs Hj Hs')].
  - intros s' Hs'. apply (keeps_tget _ _ s j s' (within_keeps3 _ _ F)).
  - destruct (Sh (nth s (mdp_mat m) [])) as [L1 L2]; [apply nth_In; exact Hs|].
    apply (keeps_sum (mdp_n m) (nth s (mdp_mat m) []) (nth s A []) j); [apply (Forall2_nth _ _ _ [] [] F s Hs)|exact L2|lia].
Qed.
Print Assumptions C146_mdp_stationary.

Theorem C146_mdp_ascent : forall (m m' : mdp R) (p : nat) (set : list (list string * Z)) (ll : R),
  wf_mdp m -> nonneg_mdp m -> mdp_rows (fun x => x = 0 \/ x = 1) m -> pos_times set -> alternating_set set -> round_MDP p set m = Ok (m', ll) ->
  Forall2 (Forall2 row_within) (mdp_mat m) (mdp_mat m') /\
  exists g, mdp_slope set m (mdp_mat m') g /\ 0 <= g /\ (m' <> m -> 0 < g).
Proof.
  intros m m' p set ll W N S HT Al E.
  destruct (round_MDP_spec m W set N p m' ll E) as (B1 & B2 & B3 & B4 & B5 & Sh & G & _).
  destruct (round_mdp_ok m set p m' ll (conj W N) E HT) as [[W' N'] _].
  assert (I0 : forall s, (s < mdp_n m)%nat -> In (nth s (mdp_mat m) []) (mdp_mat m)) by (intros; apply nth_In; assumption).
  assert (I' : forall s, (s < mdp_n m)%nat -> In (nth s (mdp_mat m') []) (mdp_mat m')) by (intros s Hs; apply nth_In; change (length (mdp_mat m')) with (mdp_n m'); lia).
  assert (F : Forall2 (Forall2 row_within) (mdp_mat m) (mdp_mat m')).
  { apply (Forall2_of_nth _ _ _ [] []); [exact B5|]. intros s Hs. change (length (mdp_mat m)) with (mdp_n m) in Hs.
    destruct (Sh _ (I' s Hs)) as [L1 R1]. destruct (proj1 W _ (I0 s Hs)) as [L0 R0].
    apply (row_within_nth (length (mdp_act m)) (mdp_n m)); auto.
    - intros j s' Hj Hs' Z. apply (d_zero' m W set m' G s j s' Hs Hj Hs' Z).
    - intros j Hj. destruct (mdp_row_rule m set p m' ll (conj W N) E HT s j Hs Hj) as [Q|[Q1 Q2]]; [exact Q|].
      destruct (S s j Hs Hj) as [Q|Q]; [contradiction|]. change (row_total m' s j = row_total m s j). congruence. }
  split; [exact F|]. eexists. split; [apply mdp_slope_eq; [split; assumption|exact Al|apply within_keeps3, F]|].
  assert (Row : forall s, (s < mdp_n m)%nat -> 
     0 <= Sum (length (mdp_act m)) (fun j => row_slope (mdp_n m) (dNUM m set s j) (tget (mdp_mat m) s j) (tget (mdp_mat m') s j)) /\
     (Sum (length (mdp_act m)) (fun j => row_slope (mdp_n m) (dNUM m set s j) (tget (mdp_mat m) s j) (tget (mdp_mat m') s j)) <= 0 ->
      forall j s', (j < length (mdp_act m))%nat -> (s' < mdp_n m)%nat -> tget (mdp_mat m') s j s' = tget (mdp_mat m) s j s')).
  { intros s Hs. apply (rows_ascent (length (mdp_act m)) (mdp_n m) (dDEN m set s)).
    - intros; apply dDEN_sum; auto.
    - intros; apply dNUM_nonneg; auto.
    - intros; apply tget_nonneg; exact N.
    - intros; apply dNUM_zero; auto.
    - intros j Hj Z. apply (used_row _ (dNUM m set s j)).
      + intros; apply tget_nonneg; exact N.
      + intros; apply dNUM_zero; auto.
      + pose proof (row_Sum m m eq_refl m s j (proj1 W) Hs Hj) as Q. rewrite <- Q. apply (S s j Hs Hj).
      + rewrite <- dDEN_sum; auto.
    - intros; apply G; auto. }
  set (X := fun s => Sum (length (mdp_act m)) (fun j => row_slope (mdp_n m) (dNUM m set s j) (tget (mdp_mat m) s j) (tget (mdp_mat m') s j))) in *.
  assert (X0 : 0 <= Sum (mdp_n m) X) by (apply Sum_nonneg; intros s Hs; apply (Row s Hs)).
  split; [exact X0|]. intros Ne. destruct (Rle_dec (Sum (mdp_n m) X) 0) as [Z|Z]; [|lra]. exfalso. apply Ne.
  assert (Ma : mdp_mat m' = mdp_mat m).
  { apply (nth_ext _ _ [] []); [exact B5|]. intros s Hs. change (length (mdp_mat m')) with (mdp_n m') in Hs. rewrite B5 in Hs.
    destruct (Sh _ (I' s Hs)) as [L1 R1]. destruct (proj1 W _ (I0 s Hs)) as [L0 R0].
    apply (rect_ext (length (mdp_act m)) (mdp_n m)); auto. apply (Row s Hs). apply Req_le. apply (Sum_nonneg_zero (mdp_n m) X); auto. intros i Hi. apply (Row i Hi). }
  destruct m, m'. cbn in *. subst. reflexivity.
Qed.
Print Assumptions C146_mdp_ascent.

Theorem C146_mdp_fixed_iff_stationary : forall (m m' : mdp R) (p : nat) (set : list (list string * Z)) (ll : R),
  wf_mdp m -> nonneg_mdp m -> mdp_rows (fun x => x = 0 \/ x = 1) m -> pos_times set -> alternating_set set -> round_MDP p set m = Ok (m', ll) ->
  (m' = m <-> forall A, Forall2 (Forall2 row_within) (mdp_mat m) A -> mdp_slope set m A 0).
Proof.
  intros m m' p set ll W N S HT Al E. split.
  - intros -> . apply (C146_mdp_stationary m p set ll W N HT Al E).
  - intros H. destruct (C146_mdp_ascent m m' p set ll W N S HT Al E) as (F & g & D & _ & P).
    destruct (classic (m' = m)) as [Q|Q]; [exact Q|]. specialize (P Q). rewrite (slope_unique _ _ _ D (H _ F)) in P. lra.
Qed.
Print Assumptions C146_mdp_fixed_iff_stationary.
