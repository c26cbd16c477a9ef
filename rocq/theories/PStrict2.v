(** C145 and C146 for parametric CTMCs learned from untimed traces: a round that
    changes a parameter improves the likelihood, and moves it in the direction in
    which the likelihood grows. *)
From Coq Require Import String ZArith Bool Reals List Lia Lra Psatz FunctionalExtensionality.
From Verif Require Import Num Py SNum SPath LSum MSet SSet MModels MCtor MLik MBW MPctmc SPctmc LPctmc LCtor LFB LEM SBW SExp LBW LBWSet LBWMC SLik LLik LEMGen LBWMDP LBWCT LBWPath LLik2 LBWLoop LFit PLik PBWMC PBWCT PBWCTU PPctmc LMM MPLearn SPLearn LPLearn LPLearn2 LPLearn3 LPLearn4 LPLearn5 LPLearn6 PPLearn PPLearn2 SObs LObs PObs2 PObs3 SVisible PVisible LStrict LStrict2 PStrict SGain LGain PGain PGain2 SGrad LGrad LGrad2 PGrad PGrad2 PGrad4 PObs.
Import ListNotations.
Local Open Scope R_scope.

(** Some transition with a positive rate mentions q, and its source is visited. *)
Definition used (m : pctmc R) (c : ctmc R) (set : list (list string * Z)) (q : string) : Prop :=
  exists i j, (i < pc_n m)%nat /\ (j < pc_n m)%nat /\ occurs q (transition m i j) /\ 0 < rate c i j /\
    0 < set_expected (mc_trace_prob_move (jump_chain c)) (mc_expected_visits (jump_chain c) i) set.

(** One round on untimed traces: either no parameter used in a visited state
    changes, or the likelihood strictly increases. *)
Theorem C145_pctmc_untimed_strict : forall (maxroot : list R -> res R) (p : nat) (fixed : list string) (pl : plan R) set (m : pctmc R) (k : nat) (mk m' : pctmc R) (ll : R) (c c' : ctmc R),
  solver maxroot -> pos_times set -> wf_pctmc m -> indexed m -> learnable fixed m -> valued m -> anchored fixed m -> sortParameters m fixed = Ok pl ->
  after_rounds (round_PCTMC maxroot KGeneric false p pl (untimed_traces set)) k m mk ->
  round_PCTMC maxroot KGeneric false p pl (untimed_traces set) mk = Ok (m', ll) -> realises mk c -> realises m' c' ->
  (forall q, In q (free_params fixed m) -> used mk c set q -> current m' q = current mk q) \/
  set_ll (mc_trace_prob_move (jump_chain c)) set < set_ll (mc_trace_prob_move (jump_chain c')) set.
Proof.
  intros maxroot p fixed pl set m k mk m' ll c c' Hs HT W I L V An Ep R Er Rc Rc'.
  destruct (Rlt_dec (set_ll (mc_trace_prob_move (jump_chain c)) set) (set_ll (mc_trace_prob_move (jump_chain c')) set)) as [Q|Q]; [right; exact Q|left].
  intros q Iq (i & j & Hi & Hj & Oq & Pr & Pv).
  destruct (untimed_rounds fixed pl set maxroot p m mk k HT Hs (mkPinv fixed pl m W I L V (sort_plan fixed m pl I L V Ep)) An R) as (Pm & Sh & Fx & Lv).
  destruct (untimed_step fixed pl set maxroot p mk m' ll HT Hs Pm Lv Er) as (_ & _ & _ & h & h' & Hh & Hh' & _).
  destruct (realises_same mk c h Rc (hval_realises mk h Hh)) as [nm ->]. destruct (realises_same m' c' h' Rc' (hval_realises m' h' Hh')) as [nm' ->].
  rewrite <- (free_shape fixed m mk Sh) in Iq.
  destruct (untimed_strict fixed pl set maxroot p mk m' ll q i j h h' HT Hs Pm (Lv h Hh) Er Hh Hh' Iq Hi Hj Oq Pr Pv) as [E|E]; [exact E|].
  exfalso. apply Q. exact E.
Qed.
Print Assumptions C145_pctmc_untimed_strict.

(** ** Derivatives *)
Lemma mc_curve_slope (m : mc R) set (C : R -> mc R) (rho : nat -> nat -> R) : mc_ok m ->
  (forall u, mc_lab (C u) = mc_lab m /\ mc_ini (C u) = mc_ini m /\ mc_n (C u) = mc_n m) -> mc_mat (C 0) = mc_mat m ->
  (forall s s', (s < mc_n m)%nat -> (s' < mc_n m)%nat -> derivable_pt_lim (fun u => matR (mc_mat (C u)) s s') 0 (matR (mc_mat m) s s' * rho s s')) ->
  (forall u s s', (s < mc_n m)%nat -> (s' < mc_n m)%nat -> matR (mc_mat m) s s' = 0 -> matR (mc_mat (C u)) s s' = 0) ->
  derivable_pt_lim (fun u => set_ll (mc_trace_prob_move (C u)) set) 0 (Sum (mc_n m) (fun s => Sum (mc_n m) (fun s' => mcNUM m set s s' * rho s s'))).
Proof.
  intros [W N] Sh E0 Dr Z0.
  eapply dl_ext. 3: apply (set_dl (mc_n m) set (fun tr : list string => tr) (fun _ _ => 1) (fun _ => vecR (mc_ini m))
    (fun u _ => matR (mc_mat (C u))) (fun _ => is_label (mc_lab m)) (fun _ => 0) (fun _ s s' => rho s s') (fun _ _ => 0)).
  - intros u. cbv beta. apply set_ll_ext. intros tr c I. rewrite <- mcP_path. unfold mcP, Pof. rewrite mc_ws_ew. destruct (Sh u) as (-> & -> & ->). reflexivity.
  - rewrite slope_ini_zero. rewrite (Sum_ext (mc_n m) (slope_emit _ _ _ _ _ _ _ _) (fun _ => 0)) by (intros; apply slope_emit_zero).
    rewrite Sum_zero, Rplus_0_l, Rplus_0_r. apply Sum_ext. intros s Hs. apply Sum_ext. intros s' Hs'.
    rewrite (slope_trans_const (mc_n m) set (fun tr : list string => tr) (fun _ _ => 1) (fun _ => vecR (mc_ini m))
      (fun u _ => matR (mc_mat (C u))) (fun _ => is_label (mc_lab m)) rho).
    f_equal. rewrite E0. unfold mcNUM. rewrite mc_ws_ew. reflexivity.
  - intros x t I s Hs. lra.
  - intros s Hs. apply vget_nonneg. apply W.
  - intros x t o I Io. split; [|intros s Hs; destruct (LBWMDP.is_label_01 (mc_lab m) o s) as [-> | ->]; lra].
    rewrite E0. intros s s' Hs Hs'. apply mget_nonneg. exact N.
  - intros s Hs. rewrite Rmult_0_r. apply dl_const.
  - intros x t o s s' I Io Hs Hs'. cbv beta. rewrite E0. apply Dr; assumption.
  - intros x t o s I Io Hs. rewrite Rmult_0_r. apply dl_const.
  - auto.
  - intros u x t o s s' I Io Hs Hs' Z. cbv beta in *. rewrite E0 in Z. apply Rmult_integral in Z. destruct Z as [Z|Z]; [rewrite Z; ring|].
    rewrite (Z0 u s s' Hs Hs' Z). ring.
Qed.

(** The same for the jump chain of a CTMC, when its rates follow a curve. *)
Lemma jc_curve_slope (h : ctmc R) set (C : R -> ctmc R) (rho : nat -> nat -> R) : wf_ctmc h -> nonneg_mat (ct_mat h) -> live h ->
  (forall u, ct_lab (C u) = ct_lab h /\ ct_ini (C u) = ct_ini h /\ square (ct_n h) (ct_mat (C u))) -> ct_mat (C 0) = ct_mat h ->
  (forall s s', (s < ct_n h)%nat -> (s' < ct_n h)%nat -> derivable_pt_lim (fun u => rate (C u) s s') 0 (rate h s s' * rho s s')) ->
  (forall u s s', (s < ct_n h)%nat -> (s' < ct_n h)%nat -> rate h s s' = 0 -> rate (C u) s s' = 0) ->
  let P := mc_trace_prob_move (jump_chain h) in
  derivable_pt_lim (fun u => set_ll (mc_trace_prob_move (jump_chain (C u))) set) 0
    (Sum (ct_n h) (fun s => Sum (ct_n h) (fun s' => set_expected P (mc_expected_moves (jump_chain h) s s') set * rho s s'
       - set_expected P (mc_expected_visits (jump_chain h) s) set / exit_rate h s * (rate h s s' * rho s s')))).
Proof.
  intros W N Lv Sh E0 Dr Z0 P.
  assert (En : forall u, ct_n (C u) = ct_n h) by (intros u; destruct (Sh u) as (_ & _ & [L _]); exact L).
  assert (Wu : forall u, wf_ctmc (C u)).
  { intros u. unfold wf_ctmc. rewrite En. destruct (Sh u) as (-> & -> & Sq). split; [exact Sq|apply W]. }
  assert (JG : forall u s s', matR (mc_mat (jump_chain (C u))) s s' = rate (C u) s s' / exit_rate (C u) s) by (intros; apply jc_mat; apply Wu).
  assert (JH : forall s s', matR (mc_mat (jump_chain h)) s s' = rate h s s' / exit_rate h s) by (intros; apply jc_mat; exact W).
  set (e := fun s => Sum (ct_n h) (fun s' => rate h s s' * rho s s')).
  assert (De : forall s, (s < ct_n h)%nat -> derivable_pt_lim (fun u => exit_rate (C u) s) 0 (e s)).
  { intros s Hs. eapply dl_ext; [|reflexivity|apply (dl_Sum (ct_n h) (fun s' u => rate (C u) s s')); intros s' Hs'; apply Dr; assumption].
    intros u. cbv beta. symmetry. apply t_exit; [apply (Sh u)|exact Hs]. }
  assert (E0e : forall s, exit_rate (C 0) s = exit_rate h s) by (intros; unfold exit_rate; rewrite E0; reflexivity).
  assert (E0r : forall s s', rate (C 0) s s' = rate h s s') by (intros; unfold rate; rewrite E0; reflexivity).
  eapply dl_ext; [reflexivity| |apply (mc_curve_slope (jump_chain h) set (fun u => jump_chain (C u)) (fun s s' => rho s s' - e s / exit_rate h s))].
  - rewrite jc_n. apply Sum_ext. intros s Hs.
    assert (EN : forall s', (s' < ct_n h)%nat -> mcNUM (jump_chain h) set s s' = set_expected P (mc_expected_moves (jump_chain h) s s') set) by (intros s' R2; apply mcNUM_path; rewrite jc_n; assumption).
    assert (EV : set_expected P (mc_expected_visits (jump_chain h) s) set = Sum (ct_n h) (fun s' => set_expected P (mc_expected_moves (jump_chain h) s s') set)).
    { unfold P. rewrite <- mcDEN_path by (rewrite jc_n; exact Hs). rewrite mcDEN_sum by (rewrite jc_n; exact Hs). rewrite jc_n. apply Sum_ext. intros s' R2. apply EN; assumption. }
    rewrite (Sum_ext (ct_n h) _ (fun s' => set_expected P (mc_expected_moves (jump_chain h) s s') set * rho s s' - set_expected P (mc_expected_moves (jump_chain h) s s') set * (e s / exit_rate h s))) by (intros s' Hs'; rewrite EN by exact Hs'; ring).
    rewrite !Sum_minus. f_equal. rewrite Sum_scal_r, Sum_scal_l, <- EV. fold (e s). unfold Rdiv. ring.
  - split; [apply jc_wf; exact W|apply jc_nonneg; exact N].
  - intros u. rewrite !jc_n, En. destruct (Sh u) as (A & B & _). cbn [jump_chain mc_lab mc_ini]. auto.
  - apply (mat_ext (ct_n h)); [rewrite <- (En 0); apply jc_square|apply jc_square|]. intros s s' Hs Hs'. rewrite JG, JH, E0r, E0e. reflexivity.
  - intros s s' Hs Hs'. rewrite jc_n in Hs, Hs'. rewrite JH. specialize (Lv s Hs).
    eapply dl_ext; [| |apply (derivable_pt_lim_div (fun u => rate (C u) s s') (fun u => exit_rate (C u) s) 0 (rate h s s' * rho s s') (e s)); [apply Dr; assumption|apply De; exact Hs|rewrite E0e; lra]].
    + intros u. rewrite JG. reflexivity.
    + rewrite E0e, E0r. unfold Rsqr. field. lra.
  - intros u s s' Hs Hs' Z. rewrite jc_n in Hs, Hs'. rewrite JH in Z. rewrite JG. specialize (Lv s Hs).
    rewrite (Z0 u s s' Hs Hs'); [unfold Rdiv; ring|]. apply Rmult_integral in Z. destruct Z as [Z|Z]; [exact Z|]. exfalso. apply (Rinv_neq_0_compat (exit_rate h s)); [lra|exact Z].
Qed.

(** The derivative of the log-likelihood of untimed traces when one parameter
    moves; the expected time in a state is its expected number of visits divided by
    its exit rate. *)
Theorem C146_pctmc_untimed_slope : forall (fixed : list string) set (m : pctmc R) (c : ctmc R) (q : string) (v : R) (f : R -> pctmc R) (C : R -> ctmc R),
  wf_pctmc m -> indexed m -> learnable fixed m -> valued m -> realises m c -> live c ->
  In q (free_params fixed m) -> current m q = Some v -> 0 < v -> moves_one m q v f -> (forall u, realises (f u) (C u)) ->
  let P := mc_trace_prob_move (jump_chain c) in
  derivable_pt_lim (fun u => set_ll (mc_trace_prob_move (jump_chain (C u))) set) 0
    ((observed_uses m q (fun i j => set_expected P (mc_expected_moves (jump_chain c) i j) set)
      - expected_uses fixed m q (fun i => set_expected P (mc_expected_visits (jump_chain c) i) set / exit_rate c i) (rate c) 1) / v).
Proof.
  intros fixed set m c q v f C W I L V Rc Lv Iq Ev Pv Mv RC P.
  destruct (hval_total m I V) as [h Hh]. destruct (realises_same m c h Rc (hval_realises m h Hh)) as [nm Ec].
  assert (Wc : wf_ctmc c) by (rewrite Ec; exact (hval_wf m h W Hh)). assert (Nc : nonneg_mat (ct_mat c)) by (rewrite Ec; exact (hval_nonneg m h V Hh)).
  clear Ec Hh h nm. destruct Rc as (El & Ei & En & Sq & Rr).
  assert (Rt : forall u i j, (i < pc_n m)%nat -> (j < pc_n m)%nat -> rate (C u) i j = rate c i j * ((v + u) / v) ^ degree q (transition m i j)).
  { intros u i j Hi Hj. destruct (Mv u) as (Sh & Eu & Oth). destruct (RC u) as (_ & _ & _ & _ & Ru). rewrite (shape_n m (f u) Sh) in Ru.
    apply (one_rate fixed m (f u) q v (v + u) i j); auto; [apply Rr|apply Ru]; assumption. }
  assert (SqC : forall u, square (ct_n c) (ct_mat (C u))).
  { intros u. destruct (RC u) as (_ & _ & R3 & R4 & _). destruct (Mv u) as (Sh & _). rewrite (shape_n m (f u) Sh) in *. rewrite En. split; assumption. }
  eapply dl_ext; [reflexivity| |apply (jc_curve_slope c set C (fun i j => INR (degree q (transition m i j)) / v) Wc Nc Lv)].
  - unfold observed_uses, expected_uses. rewrite En. fold P.
    rewrite (Sum_ext (pc_n m) _ (fun i => (Sum (pc_n m) (fun j => INR (degree q (transition m i j)) * set_expected P (mc_expected_moves (jump_chain c) i j) set) - Sum (pc_n m) (fun j => INR (degree q (transition m i j)) * (set_expected P (mc_expected_visits (jump_chain c) i) set / exit_rate c i * rate c i j * 1 ^ total_degree (free_params fixed m) (transition m i j)))) * / v)).
    + rewrite Sum_scal_r, Sum_minus. reflexivity.
    + intros i Hi. rewrite <- Sum_minus, <- Sum_scal_r. apply Sum_ext. intros j Hj. rewrite pow1. unfold Rdiv. ring.
  - intros u. destruct (RC u) as (R1 & R2 & _). destruct (Mv u) as (Sh & _). rewrite R1, R2, El, Ei. destruct Sh as (_ & S2 & _ & _ & _ & S6 & _). rewrite S2, S6. auto.
  - apply (mat_ext (ct_n c)); [apply SqC|apply Wc|]. intros i j Hi Hj. rewrite En in Hi, Hj. pose proof (Rt 0 i j Hi Hj) as E. unfold rate in E. rewrite E.
    replace ((v + 0) / v) with 1 by (field; lra). rewrite pow1. ring.
  - intros i j Hi Hj. rewrite En in Hi, Hj. eapply dl_ext; [|reflexivity|]. 2: eapply dl_ext; [reflexivity| |apply (dl_scal_r (fun u => ((v + u) / v) ^ degree q (transition m i j)) _ (rate c i j) (dl_power v _ Pv))]; ring.
    intros u. cbv beta. rewrite (Rt u i j Hi Hj). ring.
  - intros u i j Hi Hj Z. rewrite En in Hi, Hj. rewrite (Rt u i j Hi Hj), Z. ring.
Qed.
Print Assumptions C146_pctmc_untimed_slope.

(** A round on untimed traces moves each used parameter in the direction in which
    the log-likelihood grows, and leaves it exactly when the derivative is 0. *)
Theorem C146_pctmc_untimed_direction : forall (maxroot : list R -> res R) (p : nat) (fixed : list string) (pl : plan R) set (m : pctmc R) (k : nat) (mk m' : pctmc R) (ll : R) (c : ctmc R) (q : string) (v : R) (f : R -> pctmc R) (C : R -> ctmc R),
  solver maxroot -> pos_times set -> wf_pctmc m -> indexed m -> learnable fixed m -> valued m -> anchored fixed m -> sortParameters m fixed = Ok pl ->
  after_rounds (round_PCTMC maxroot KGeneric false p pl (untimed_traces set)) k m mk ->
  round_PCTMC maxroot KGeneric false p pl (untimed_traces set) mk = Ok (m', ll) -> realises mk c ->
  In q (free_params fixed m) -> current mk q = Some v -> 0 < v -> used mk c set q ->
  moves_one mk q v f -> (forall u, realises (f u) (C u)) ->
  exists g w, derivable_pt_lim (fun u => set_ll (mc_trace_prob_move (jump_chain (C u))) set) 0 g /\ current m' q = Some w /\
    (0 < g <-> v < w) /\ (g < 0 <-> w < v) /\ (g = 0 <-> w = v).
Proof.
  intros maxroot p fixed pl set m k mk m' ll c q v f C Hs HT W I L V An Ep R Er Rc Iq Ev Pv (i & j & Hi & Hj & Oq & Pr & Pd) Mv RC.
  destruct (C107_pctmc_untimed_round maxroot p fixed pl set m k mk m' ll c Hs HT W I L V An Ep R Er Rc) as [_ K].
  destruct (K q v Iq Ev) as (w & Ew & z & Z0 & -> & Ze).
  destruct (untimed_rounds fixed pl set maxroot p m mk k HT Hs (mkPinv fixed pl m W I L V (sort_plan fixed m pl I L V Ep)) An R) as ([W1 I1 L1 V1 P1] & Sh & _ & Lv).
  rewrite <- (free_shape fixed m mk Sh) in Iq. pose proof (shape_n m mk Sh) as En.
  destruct (hval_total mk I1 V1) as [h Hh]. destruct (realises_same mk c h Rc (hval_realises mk h Hh)) as [nm Ec].
  pose proof (hval_n mk h Hh) as Eh.
  assert (Wc : wf_ctmc c) by (rewrite Ec; exact (hval_wf mk h W1 Hh)). assert (Nc : nonneg_mat (ct_mat c)) by (rewrite Ec; exact (hval_nonneg mk h V1 Hh)).
  assert (Lc : live c) by (rewrite Ec; exact (Lv h Hh)). assert (Ecn : ct_n c = pc_n mk) by (rewrite Ec; exact Eh).
  set (D := fun i => set_expected (mc_trace_prob_move (jump_chain c)) (mc_expected_visits (jump_chain c) i) set / exit_rate c i) in *.
  assert (HD : forall i, (i < pc_n mk)%nat -> 0 <= D i).
  { intros i' Hi'. rewrite <- Ecn in Hi'. unfold D. apply Rdiv_le_0_compat; [|apply Lc; exact Hi']. rewrite <- mcDEN_path by (rewrite jc_n; exact Hi'). rewrite mcDEN_sum by (rewrite jc_n; exact Hi').
    apply Sum_nonneg. intros s' R2. apply mcNUM_nonneg; auto; try (rewrite jc_n; assumption); [apply jc_nonneg; exact Nc|apply Wc]. }
  assert (Hr : forall i j, (i < pc_n mk)%nat -> (j < pc_n mk)%nat -> 0 <= rate c i j) by (intros i' j' Hi' Hj'; apply mget_nonneg; exact Nc).
  assert (Eu : forall x, expected_uses fixed m q D (rate c) x = expected_uses fixed mk q D (rate c) x).
  { intros x. unfold expected_uses. rewrite En, (free_shape fixed m mk Sh). apply Sum_ext. intros a Ha. apply Sum_ext. intros b Hb. rewrite (shape_trans m mk a b Sh). reflexivity. }
  assert (Eo : observed_uses m q (fun i j => set_expected (mc_trace_prob_move (jump_chain c)) (mc_expected_moves (jump_chain c) i j) set) = observed_uses mk q (fun i j => set_expected (mc_trace_prob_move (jump_chain c)) (mc_expected_moves (jump_chain c) i j) set)).
  { unfold observed_uses. rewrite En. apply Sum_ext. intros a Ha. apply Sum_ext. intros b Hb. rewrite (shape_trans m mk a b Sh). reflexivity. }
  rewrite !Eu, Eo in Ze.
  assert (St : forall x y, 0 <= x -> x < y -> expected_uses fixed mk q D (rate c) x < expected_uses fixed mk q D (rate c) y).
  { intros x y. apply uses_strict; auto. exists i, j. repeat split; auto.
    - apply degree_pos; [|exact Oq]. apply (free_mono fixed mk q i j); assumption.
    - unfold D. apply Rdiv_lt_0_compat; [exact Pd|]. apply Lc. rewrite Ecn. exact Hi. }
  eexists _, (v * z). split; [apply (C146_pctmc_untimed_slope fixed set mk c q v f C); assumption|]. split; [exact Ew|]. fold D.
  set (F := expected_uses fixed mk q D (rate c)) in *.
  assert (Ze' : F z = observed_uses mk q (fun i j => set_expected (mc_trace_prob_move (jump_chain c)) (mc_expected_moves (jump_chain c) i j) set)).
  { destruct Ze as [Ze|[_ Ze]]; [exact Ze|]. exfalso. assert (F 0 < F 1) by (apply St; lra).
    assert (0 <= F 0); [|lra]. unfold F, expected_uses. apply Sum_nonneg. intros a Ha. apply Sum_nonneg. intros b Hb.
    apply Rmult_le_pos; [apply pos_INR|]. apply Rmult_le_pos; [apply Rmult_le_pos; auto|]. apply pow_le. lra. }
  rewrite <- Ze'.
  assert (Iv : 0 < / v) by (apply Rinv_0_lt_compat; exact Pv).
  destruct (Rtotal_order z 1) as [Lt|[->|Gt]].
  - assert (F z < F 1) by (apply St; lra). assert ((F z - F 1) / v < 0) by (unfold Rdiv; nra). assert (v * z < v) by nra. repeat split; intros; lra.
  - replace ((F 1 - F 1) / v) with 0 by (unfold Rdiv; ring). repeat split; intros; lra.
  - assert (F 1 < F z) by (apply St; lra). assert (0 < (F z - F 1) / v) by (unfold Rdiv; nra). assert (v < v * z) by nra. repeat split; intros; lra.
Qed.
Print Assumptions C146_pctmc_untimed_direction.

(** If a round on untimed traces leaves a parameter unchanged, its derivative is 0. *)
Theorem C146_pctmc_untimed_stationary : forall (maxroot : list R -> res R) (p : nat) (fixed : list string) (pl : plan R) set (m : pctmc R) (k : nat) (mk m' : pctmc R) (ll : R) (c : ctmc R) (q : string) (v : R) (f : R -> pctmc R) (C : R -> ctmc R),
  solver maxroot -> pos_times set -> wf_pctmc m -> indexed m -> learnable fixed m -> valued m -> anchored fixed m -> sortParameters m fixed = Ok pl ->
  after_rounds (round_PCTMC maxroot KGeneric false p pl (untimed_traces set)) k m mk ->
  round_PCTMC maxroot KGeneric false p pl (untimed_traces set) mk = Ok (m', ll) -> realises mk c ->
  In q (free_params fixed m) -> current mk q = Some v -> 0 < v -> current m' q = Some v ->
  moves_one mk q v f -> (forall u, realises (f u) (C u)) ->
  derivable_pt_lim (fun u => set_ll (mc_trace_prob_move (jump_chain (C u))) set) 0 0.
Proof.
  intros maxroot p fixed pl set m k mk m' ll c q v f C Hs HT W I L V An Ep R Er Rc Iq Ev Pv Ev' Mv RC.
  destruct (Classical_Prop.classic (used mk c set q)) as [X|NX].
  - destruct (C146_pctmc_untimed_direction maxroot p fixed pl set m k mk m' ll c q v f C) as (g & w & Dg & Ew & _ & _ & G); auto.
    rewrite Ev' in Ew. injection Ew as <-. rewrite (proj2 G eq_refl) in Dg. exact Dg.
  - destruct (untimed_rounds fixed pl set maxroot p m mk k HT Hs (mkPinv fixed pl m W I L V (sort_plan fixed m pl I L V Ep)) An R) as ([W1 I1 L1 V1 P1] & Sh & _ & Lv).
    rewrite <- (free_shape fixed m mk Sh) in Iq.
    destruct (hval_total mk I1 V1) as [h Hh]. destruct (realises_same mk c h Rc (hval_realises mk h Hh)) as [nm Ec].
    pose proof (hval_n mk h Hh) as Eh.
    assert (Wc : wf_ctmc c) by (rewrite Ec; exact (hval_wf mk h W1 Hh)). assert (Nc : nonneg_mat (ct_mat c)) by (rewrite Ec; exact (hval_nonneg mk h V1 Hh)).
    assert (Lc : live c) by (rewrite Ec; exact (Lv h Hh)). assert (Ecn : ct_n c = pc_n mk) by (rewrite Ec; exact Eh).
    eapply dl_ext; [reflexivity| |apply (C146_pctmc_untimed_slope fixed set mk c q v f C W1 I1 L1 V1 Rc Lc Iq Ev Pv Mv RC)].
    assert (Cell : forall i j, (i < pc_n mk)%nat -> (j < pc_n mk)%nat -> degree q (transition mk i j) <> O ->
      set_expected (mc_trace_prob_move (jump_chain c)) (mc_expected_moves (jump_chain c) i j) set = 0 /\
      set_expected (mc_trace_prob_move (jump_chain c)) (mc_expected_visits (jump_chain c) i) set / exit_rate c i * rate c i j = 0).
    { intros i j Hi Hj D0. pose proof (degree_zero q _ D0) as Oq.
      assert (Hi' : (i < mc_n (jump_chain c))%nat) by (rewrite jc_n, Ecn; exact Hi). assert (Hj' : (j < mc_n (jump_chain c))%nat) by (rewrite jc_n, Ecn; exact Hj).
      assert (Nj : forall s s', (s < mc_n (jump_chain c))%nat -> (s' < mc_n (jump_chain c))%nat -> 0 <= mcNUM (jump_chain c) set s s') by (intros s s' Hs0 Hs1; apply mcNUM_nonneg; auto; [apply jc_nonneg; exact Nc|apply Wc]).
      rewrite <- mcNUM_path, <- mcDEN_path by assumption. rewrite mcDEN_sum by exact Hi'.
      assert (Rn : 0 <= rate c i j) by (apply mget_nonneg; exact Nc).
      destruct (Req_dec (rate c i j) 0) as [Z|Z].
      - split; [|rewrite Z; ring]. apply mcNUM_zero. change (mget (mc_mat (jump_chain c)) i j) with (matR (mc_mat (jump_chain c)) i j). rewrite (jc_mat c i j Wc) by (rewrite Ecn; assumption). unfold jump. change (matR (ct_mat c) i j) with (rate c i j). rewrite Z. unfold Rdiv. ring.
      - assert (Q : Sum (mc_n (jump_chain c)) (mcNUM (jump_chain c) set i) = 0).
        { destruct (Req_dec (Sum (mc_n (jump_chain c)) (mcNUM (jump_chain c) set i)) 0) as [Q|Q]; [exact Q|]. exfalso. apply NX. exists i, j. repeat split; auto; [lra|].
          rewrite <- mcDEN_path, mcDEN_sum by exact Hi'. assert (0 <= Sum (mc_n (jump_chain c)) (mcNUM (jump_chain c) set i)) by (apply Sum_nonneg; intros; apply Nj; assumption). lra. }
        split; [|rewrite Q; unfold Rdiv; ring]. apply (Sum_nonneg_zero (mc_n (jump_chain c)) (mcNUM (jump_chain c) set i)); auto. rewrite Q. lra. }
    replace (observed_uses mk q _) with 0; [replace (expected_uses fixed mk q _ _ 1) with 0; [unfold Rdiv; ring|]|]; symmetry.
    + unfold expected_uses. apply Sum_zero_ext. intros i Hi. apply Sum_zero_ext. intros j Hj. destruct (Nat.eq_dec (degree q (transition mk i j)) 0) as [->|D0]; [cbn; ring|].
      rewrite (proj2 (Cell i j Hi Hj D0)). ring.
    + unfold observed_uses. apply Sum_zero_ext. intros i Hi. apply Sum_zero_ext. intros j Hj. destruct (Nat.eq_dec (degree q (transition mk i j)) 0) as [->|D0]; [cbn; ring|].
      rewrite (proj1 (Cell i j Hi Hj D0)). ring.
Qed.
Print Assumptions C146_pctmc_untimed_stationary.

(** ** The hypotheses hold: rates 1, x*y, 3 and 2*z, y fixed, two different untimed
    traces. The log-likelihood has slope 1 in x; a round raises x, and the
    likelihood. *)
Lemma exC_dist r : In r (mc_mat (jump_chain exC)) -> is_dist r.
Proof.
  intros [<-|[<-|[]]]; (split; [intros x [<-|[<-|[]]]|]); unfold jump, exit_rate, matR; cbn; lra.
Qed.
Lemma exC_wf : wf_ctmc exC.
Proof.
  destruct (hval_total exL exL_indexed exL_valued) as [h Hh]. destruct (realises_same exL exC h exL_realises (hval_realises exL h Hh)) as [nm Ec].
  rewrite Ec. exact (hval_wf exL h exL_wf Hh).
Qed.
Lemma exC_live : live exC.
Proof. intros s Hs. two Hs; unfold exit_rate; cbn; lra. Qed.
Lemma Sum2 f : Sum 2 f = f 0%nat + f 1%nat.
Proof. unfold Sum. cbn. lra. Qed.
Lemma exU_visits s : (s < 2)%nat -> set_expected (mc_trace_prob_move (jump_chain exC)) (mc_expected_visits (jump_chain exC) s) exU =
  sumL exU (fun st => IZR (snd st) * (SObs.left (nth s ["init"; "a"]%string EmptyString) (fst st) (ones (fst st)) + ends (nth s ["init"; "a"]%string EmptyString) (fst st))).
Proof.
  intros Hs. unfold set_expected. apply sumL_ext. intros [tr t] I. cbn [fst snd]. pose proof (exU_pos tr t I) as P. destruct (Rlt_dec 0 _) as [_|N]; [|contradiction].
  rewrite (mco_visits (jump_chain exC) (jc_wf exC exC_wf)); [|repeat constructor; cbn; intuition discriminate|rewrite jc_n; exact Hs]. cbn [mc_lab jump_chain exC ct_lab]. field. lra.
Qed.
Lemma exU_moves s s' : (s < 2)%nat -> (s' < 2)%nat -> set_expected (mc_trace_prob_move (jump_chain exC)) (mc_expected_moves (jump_chain exC) s s') exU =
  sumL exU (fun st => IZR (snd st) * (seen (nth s ["init"; "a"]%string EmptyString) (nth s' ["init"; "a"]%string EmptyString) (fst st) (ones (fst st)) + ends (nth s ["init"; "a"]%string EmptyString) (fst st) * jump exC s s')).
Proof.
  intros Hs Hs'. unfold set_expected. apply sumL_ext. intros [tr t] I. cbn [fst snd]. pose proof (exU_pos tr t I) as P. destruct (Rlt_dec 0 _) as [_|N]; [|contradiction].
  rewrite (mco_moves (jump_chain exC) (jc_wf exC exC_wf) exC_dist); [|repeat constructor; cbn; intuition discriminate|rewrite jc_n; exact Hs|rewrite jc_n; exact Hs'].
  rewrite (jc_mat exC s s' exC_wf). cbn [mc_lab jump_chain exC ct_lab]. field. lra.
Qed.
Example C146_pctmc_untimed_instance : used exL exC exU "x" /\ derivable_pt_lim (fun u => set_ll (mc_trace_prob_move (jump_chain (exCx u))) exU) 0 1 /\
  exists pl m' ll w c', sortParameters exL ["y"%string] = Ok pl /\ round_PCTMC quad KGeneric false 1 pl (untimed_traces exU) exL = Ok (m', ll) /\
    current m' "x" = Some w /\ 1 < w /\ realises m' c' /\ set_ll (mc_trace_prob_move (jump_chain exC)) exU < set_ll (mc_trace_prob_move (jump_chain c')) exU.
Proof.
  destruct exU_ok as (B & D & E).
  assert (Iq : In "x"%string (free_params ["y"%string] exL)) by (cbn; auto).
  assert (Xp : used exL exC exU "x").
  { exists 0%nat, 1%nat. split; [cbn; lia|]. split; [cbn; lia|]. split; [cbn; auto|]. split; [unfold rate, matR; cbn; lra|].
    rewrite exU_visits by lia. unfold sumL. cbn. lra. }
  assert (Sl : derivable_pt_lim (fun u => set_ll (mc_trace_prob_move (jump_chain (exCx u))) exU) 0 1).
  { eapply dl_ext; [reflexivity| |apply (C146_pctmc_untimed_slope ["y"%string] exU exL exC "x" 1 exLx exCx); auto using exL_wf, exL_indexed, exL_valued, exL_learnable, exL_realises, exLx_moves, exCx_realises, exC_live; try reflexivity; lra].
    unfold observed_uses, expected_uses. change (pc_n exL) with 2%nat. rewrite !Sum2.
    rewrite !exU_moves, !exU_visits by lia. unfold sumL, rate, jump, exit_rate, matR. cbn. lra. }
  split; [exact Xp|]. split; [exact Sl|].
  assert (Ep : exists pl, sortParameters exL ["y"%string] = Ok pl) by (eexists; reflexivity). destruct Ep as [pl Ep].
  destruct (hval_total exL exL_indexed exL_valued) as [h Hh]. destruct (realises_same exL exC h exL_realises (hval_realises exL h Hh)) as [nm Ec].
  assert (Pos : forall tr t, In (tr, t) exU -> 0 < mc_trace_prob_move (jump_chain h) tr) by (intros tr t I; pose proof (exU_pos tr t I) as P; rewrite Ec in P; exact P).
  destruct (untimed_round_ok exL ["y"%string] pl h exU Hh exL_wf exL_indexed (exL_learnable _) exL_valued (sort_plan _ _ _ exL_indexed (exL_learnable _) exL_valued Ep) quad 1) as (m' & ll & Er); auto.
  - revert Ep. cbn. intros [= <-]. reflexivity.
  - exists ["init"; "a"]%string, 2%Z. split; [left; reflexivity|]. apply (Pos _ 2%Z). left. reflexivity.
  - destruct (C146_pctmc_untimed_direction quad 1 ["y"%string] pl exU exL 0 exL m' ll exC "x" 1 exLx exCx) as (g & w & Dg & Ew & G & _); auto using quad_solver, exL_wf, exL_indexed, exL_valued, exL_learnable, (exL_anchored ["y"%string]), exL_realises, exLx_moves, exCx_realises, ar_start; try lra.
    assert (Lw : 1 < w) by (apply G; rewrite (uniqueness_limite _ 0 g 1 Dg Sl); lra).
    destruct (C108_pctmc_untimed_likelihood quad 1 ["y"%string] pl exU exL 0 exL m' ll) as (c0 & c' & _ & Rc' & _); auto using quad_solver, exL_wf, exL_indexed, exL_valued, exL_learnable, (exL_anchored ["y"%string]), ar_start.
    exists pl, m', ll, w, c'. do 5 (split; [assumption|]).
    destruct (C145_pctmc_untimed_strict quad 1 ["y"%string] pl exU exL 0 exL m' ll exC c') as [Q|Q]; auto using quad_solver, exL_wf, exL_indexed, exL_valued, exL_learnable, (exL_anchored ["y"%string]), exL_realises, ar_start.
    exfalso. specialize (Q "x"%string Iq Xp). rewrite Ew in Q. injection Q as Q. lra.
Qed.
