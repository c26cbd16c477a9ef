(** C146 for parametric continuous-time Markov chains learned from timed traces:
    how the likelihood reacts to one parameter, and that a round moves each
    parameter in the direction in which the likelihood grows. *)
From Coq Require Import String ZArith Bool Reals List Lia Lra Psatz FunctionalExtensionality.
From Verif Require Import Num Py SNum SPath LSum MSet SSet MModels MCtor MLik MBW MPctmc SPctmc LPctmc LCtor LFB LEM SBW SExp LBW LBWSet LBWMC SLik LLik LEMGen LBWMDP LBWCT LBWPath LLik2 LBWLoop LFit PLik PBWMC PBWCT PBWCTU PPctmc LMM MPLearn SPLearn LPLearn LPLearn2 LPLearn3 LPLearn4 LPLearn5 LPLearn6 PPLearn PPLearn2 SObs LObs PObs2 PObs3 SVisible PVisible LStrict PStrict SGain LGain PGain PGain2 SGrad LGrad LGrad2 PGrad PGrad2.
Import ListNotations.
Local Open Scope R_scope.

(** ** Along any curve of rates *)
Lemma ct_curve_slope (m : ctmc R) set (C : R -> ctmc R) (rho : nat -> nat -> R) : ct_ok m -> timed_set set ->
  (forall u, ct_lab (C u) = ct_lab m /\ ct_ini (C u) = ct_ini m /\ square (ct_n m) (ct_mat (C u))) -> ct_mat (C 0) = ct_mat m ->
  (forall s s', (s < ct_n m)%nat -> (s' < ct_n m)%nat -> derivable_pt_lim (fun u => rate (C u) s s') 0 (rate m s s' * rho s s')) ->
  (forall u s s', (s < ct_n m)%nat -> (s' < ct_n m)%nat -> rate m s s' = 0 -> rate (C u) s s' = 0) ->
  derivable_pt_lim (fun u => set_ll (ct_density (C u)) set) 0
    (Sum (ct_n m) (fun s => Sum (ct_n m) (fun s' => tXI m set s s' * rho s s' - tDEN m set s * (rate m s s' * rho s s')))).
Proof.
  intros [W N] Ti Sh E0 Dr Z0.
  assert (Sq : square (ct_n m) (ct_mat m)) by apply W.
  assert (En : forall u, ct_n (C u) = ct_n m) by (intros u; destruct (Sh u) as (_ & _ & [L _]); exact L).
  assert (Et : tb (C 0) = tb m) by (do 2 (apply functional_extensionality; intro); unfold tb, exit_rate; rewrite E0; destruct (Sh 0) as (-> & _); reflexivity).
  assert (Em : (fun u (_ : string * R) => matR (ct_mat (C u))) 0 = (fun _ => matR (ct_mat m))) by (cbv beta; rewrite E0; reflexivity).
  set (e := fun s => Sum (ct_n m) (fun s' => rate m s s' * rho s s')).
  assert (De : forall s, (s < ct_n m)%nat -> derivable_pt_lim (fun u => exit_rate (C u) s) 0 (e s)).
  { intros s Hs. eapply dl_ext; [|reflexivity|apply (dl_Sum (ct_n m) (fun s' u => rate (C u) s s')); intros s' Hs'; apply Dr; assumption].
    intros u. cbv beta. symmetry. apply t_exit; [apply (Sh u)|exact Hs]. }
  eapply dl_ext. 3: apply (set_dl (ct_n m) set ots (tf m) (fun _ => vecR (ct_ini m))
    (fun u _ => matR (ct_mat (C u))) (fun u => tb (C u)) (fun _ => 0)
    (fun _ s s' => rho s s') (fun o s => snd o * - e s)).
  - intros u. cbv beta. apply set_ll_ext. intros tr k I. rewrite <- tP_path by apply (Ti tr k I).
    unfold Pof, tW. rewrite En. destruct (Sh u) as (El & Ei & _). rewrite Ei.
    replace (tf (C u)) with (tf m); [reflexivity|]. do 2 (apply functional_extensionality; intro). unfold tf. rewrite El. reflexivity.
  - rewrite slope_ini_zero, Rplus_0_l.
    rewrite <- Sum_plus. apply Sum_ext. intros s Hs.
    assert (Ee : slope_emit (ct_n m) set ots (tf m) (fun _ => vecR (ct_ini m)) (fun u _ => matR (ct_mat (C u))) (fun u => tb (C u)) (fun o s => snd o * - e s) s
      = tDEN m set s * - e s).
    { unfold slope_emit, cDEN, GA. cbv beta. rewrite E0, Et. rewrite <- psum_scal_r. apply psum_ext. intros x t I P.
      rewrite wsum_scal_r. unfold tc, tW, tA. change (@vget R RNum) with vecR. ring. }
    rewrite Ee. unfold e.
    replace (tDEN m set s * _) with (Sum (ct_n m) (fun s' => - (tDEN m set s * (rate m s s' * rho s s')))).
    + rewrite <- Sum_plus. apply Sum_ext. intros s' Hs'.
      rewrite (slope_trans_const (ct_n m) set ots (tf m) (fun _ => vecR (ct_ini m)) (fun u _ => matR (ct_mat (C u))) (fun u => tb (C u)) rho).
      cbv beta. rewrite E0, Et. unfold Rminus. reflexivity.
    + rewrite (Sum_ext (ct_n m) _ (fun s' => (- tDEN m set s) * (rate m s s' * rho s s'))) by (intros; ring).
      rewrite Sum_scal_l. ring.
  - intros x t I. apply (t_okf m set x t I).
  - apply (t_oka m W).
  - cbv beta. rewrite E0, Et. exact (t_HA m set N).
  - intros s Hs. rewrite Rmult_0_r. apply dl_const.
  - intros x t o s s' I Io Hs Hs'. cbv beta. rewrite E0. apply Dr; assumption.
  - intros x t o s I Io Hs. cbv beta. rewrite Et.
    eapply dl_ext. 3: apply (dl_mult (fun _ => is_label (ct_lab m) (fst o) s) (fun u => exp (exit_rate (C u) s * (- snd o))));
      [apply dl_const|apply (dl_exp (fun u => exit_rate (C u) s * (- snd o))), dl_scal_r; apply De; exact Hs].
    + intros u. cbv beta. unfold tb. destruct (Sh u) as (-> & _). do 2 f_equal. ring.
    + cbv beta. unfold tb. replace (exit_rate (C 0) s) with (exit_rate m s) by (unfold exit_rate; rewrite E0; reflexivity).
      replace (exit_rate m s * - snd o) with (- (exit_rate m s * snd o)) by ring. ring.
  - auto.
  - intros u x t o s s' I Io Hs Hs' Z. cbv beta in *. rewrite E0, Et in Z. apply Rmult_integral in Z. destruct Z as [Z|Z].
    + unfold tb in *. destruct (Sh u) as (-> & _). apply Rmult_integral in Z. destruct Z as [Z|Z]; [rewrite Z; ring|].
      pose proof (exp_pos (- (exit_rate m s * snd o))). lra.
    + pose proof (Z0 u s s' Hs Hs' Z) as Z'. unfold rate in Z'. rewrite Z'. ring.
Qed.

(** ** Along one parameter *)
(** [moves_one m q v f]: f u is the model m with v + u as the value of q. *)
Definition moves_one (m : pctmc R) (q : string) (v : R) (f : R -> pctmc R) : Prop :=
  forall u, same_shape m (f u) /\ current (f u) q = Some (v + u) /\ forall q', q' <> q -> current (f u) q' = current m q'.

Lemma one_rate fixed (m x : pctmc R) q v w i j r r' : learnable fixed m -> In q (free_params fixed m) -> 0 < v -> same_shape m x ->
  current m q = Some v -> current x q = Some w -> (forall q', q' <> q -> current x q' = current m q') ->
  (i < pc_n m)%nat -> (j < pc_n m)%nat -> has_rate m (current m) i j r -> has_rate x (current x) i j r' ->
  r' = r * (w / v) ^ degree q (transition m i j).
Proof.
  intros L Iq Pv Sh Em Ex Oth Hi Hj Hr Hr'. unfold has_rate in *. rewrite (shape_trans m x i j Sh) in Hr'.
  destruct (Nat.eq_dec (degree q (transition m i j)) 0) as [D0|D0].
  - rewrite D0, pow_O, Rmult_1_r. destruct Hr' as [rho [A ->]]. apply (has_value_fun (current m) (transition m i j)); [|exact Hr].
    exists rho. split; [|reflexivity]. intros y Oy. rewrite <- A by exact Oy. symmetry. apply Oth. intros ->.
    pose proof (degree_pos q _ (free_mono fixed m q i j L Iq Hi Hj Oy) Oy). lia.
  - pose proof (degree_zero q _ D0) as Oq. pose proof (free_mono fixed m q i j L Iq Hi Hj Oq) as M.
    destruct Hr as [rho [A ->]], Hr' as [rho' [A' ->]]. rewrite (mono_scale q rho _ M), (mono_scale q rho' _ M).
    pose proof (A q Oq) as Aq. rewrite Em in Aq. injection Aq as <-. pose proof (A' q Oq) as Aq'. rewrite Ex in Aq'. injection Aq' as <-.
    rewrite Rmult_assoc, <- Rpow_mult_distr. replace (v * (w / v)) with w by (field; lra). f_equal.
    apply (has_value_fun (fun y => if String.eqb y q then Some 1 else current m y) (transition m i j)); eexists; (split; [|reflexivity]); intros y Oy; cbn beta;
      destruct (String.eqb_spec y q) as [->|Ny]; try reflexivity; rewrite <- ?A, <- ?A' by exact Oy; auto using eq_sym.
Qed.
Lemma dl_power v d : 0 < v -> derivable_pt_lim (fun u => ((v + u) / v) ^ d) 0 (INR d / v).
Proof.
  intros Pv. assert (D1 : derivable_pt_lim (fun u => (v + u) / v) 0 (/ v)).
  { eapply dl_ext; [| |apply (dl_scal_r (fun u => v + u) 1 (/ v))]; [reflexivity|ring|].
    eapply dl_ext; [| |apply (derivable_pt_lim_plus (fun _ => v) (fun u => u) 0 0 1); [apply derivable_pt_lim_const|apply derivable_pt_lim_id]]; [reflexivity|ring]. }
  eapply dl_ext; [| |apply (derivable_pt_lim_comp (fun u => (v + u) / v) (fun x => x ^ d) 0 (/ v) (INR d * ((v + 0) / v) ^ pred d) D1); apply derivable_pt_lim_pow].
  - reflexivity.
  - replace ((v + 0) / v) with 1 by (field; lra). rewrite pow1. unfold Rdiv. ring.
Qed.

Section Slope.
  Context (fixed : list string) (set : list ((list string * list R) * Z)) (m : pctmc R) (c : ctmc R).
  Hypotheses (Hset : timed_set set) (W : wf_pctmc m) (I : indexed m) (L : learnable fixed m) (V : valued m) (Rc : realises m c).
  Let X i j := set_expected (ct_density c) (ct_expected_moves c i j) set.
  Let D i := set_expected (ct_density c) (ct_expected_dwell c i) set.

  Lemma one_slope q v (f : R -> pctmc R) (C : R -> ctmc R) : In q (free_params fixed m) -> current m q = Some v -> 0 < v -> moves_one m q v f ->
    (forall u, realises (f u) (C u)) ->
    derivable_pt_lim (fun u => set_ll (ct_density (C u)) set) 0 ((observed_uses m q X - expected_uses fixed m q D (rate c) 1) / v).
  Proof.
    intros Iq Ev Pv Mv RC.
    destruct (hval_total m I V) as [h Hh]. destruct (realises_same m c h Rc (hval_realises m h Hh)) as [nm Ec]. subst c.
    pose proof (hval_wf m h W Hh) as Wh. pose proof (hval_nonneg m h V Hh) as Nh. destruct (hval_realises m h Hh) as (El & Ei & En & Sq & Rr).
    change (rate {| ct_mat := ct_mat h; ct_lab := ct_lab h; ct_ini := ct_ini h; ct_name := nm |}) with (rate h).
    assert (Rt : forall u i j, (i < pc_n m)%nat -> (j < pc_n m)%nat -> rate (C u) i j = rate h i j * ((v + u) / v) ^ degree q (transition m i j)).
    { intros u i j Hi Hj. destruct (Mv u) as (Sh & Eu & Oth). destruct (RC u) as (_ & _ & _ & _ & Ru). rewrite (shape_n m (f u) Sh) in Ru.
      apply (one_rate fixed m (f u) q v (v + u) i j); auto; [apply Rr|apply Ru]; assumption. }
    assert (SqC : forall u, square (ct_n h) (ct_mat (C u))).
    { intros u. destruct (RC u) as (_ & _ & R3 & R4 & _). destruct (Mv u) as (Sh & _). rewrite (shape_n m (f u) Sh) in *. rewrite En. split; assumption. }
    eapply dl_ext; [reflexivity| |apply (ct_curve_slope h set C (fun i j => INR (degree q (transition m i j)) / v) (conj Wh Nh) Hset)].
    - unfold observed_uses, expected_uses. rewrite En.
      rewrite (Sum_ext (pc_n m) _ (fun i => (Sum (pc_n m) (fun j => INR (degree q (transition m i j)) * X i j) - Sum (pc_n m) (fun j => INR (degree q (transition m i j)) * (D i * rate h i j * 1 ^ total_degree (free_params fixed m) (transition m i j)))) * / v)).
      + rewrite Sum_scal_r, Sum_minus. reflexivity.
      + intros i Hi. rewrite <- Sum_minus, <- Sum_scal_r. apply Sum_ext. intros j Hj.
        rewrite (em_X h set Hset) by (rewrite En; assumption). rewrite (em_D h set Hset) by (rewrite En; assumption). rewrite pow1.
        change (set_expected (ct_density h) (ct_expected_moves h i j) set) with (X i j). change (set_expected (ct_density h) (ct_expected_dwell h i) set) with (D i).
        unfold Rdiv. ring.
    - intros u. destruct (RC u) as (R1 & R2 & _). destruct (Mv u) as (Sh & _). rewrite R1, R2, El, Ei. destruct Sh as (_ & S2 & _ & _ & _ & S6 & _). rewrite S2, S6. auto.
    - apply (mat_ext (ct_n h)); [apply SqC|apply Wh|]. intros i j Hi Hj. rewrite En in Hi, Hj. pose proof (Rt 0 i j Hi Hj) as E. unfold rate in E. rewrite E.
      replace ((v + 0) / v) with 1 by (field; lra). rewrite pow1. ring.
    - intros i j Hi Hj. rewrite En in Hi, Hj. eapply dl_ext; [|reflexivity|]. 2: eapply dl_ext; [reflexivity| |apply (dl_scal_r (fun u => ((v + u) / v) ^ degree q (transition m i j)) _ (rate h i j) (dl_power v _ Pv))]; ring.
      intros u. cbv beta. rewrite (Rt u i j Hi Hj). ring.
    - intros u i j Hi Hj Z. rewrite En in Hi, Hj. rewrite (Rt u i j Hi Hj), Z. ring.
  Qed.
End Slope.

(** The derivative of the log-likelihood when one parameter moves: the expected
    number of moves it explains, minus the number it should explain given the
    expected times, divided by its value. *)
Theorem C146_pctmc_slope : forall (fixed : list string) set (m : pctmc R) (c : ctmc R) (q : string) (v : R) (f : R -> pctmc R) (C : R -> ctmc R),
  timed_set set -> wf_pctmc m -> indexed m -> learnable fixed m -> valued m -> realises m c ->
  In q (free_params fixed m) -> current m q = Some v -> 0 < v -> moves_one m q v f -> (forall u, realises (f u) (C u)) ->
  derivable_pt_lim (fun u => set_ll (ct_density (C u)) set) 0
    ((observed_uses m q (fun i j => set_expected (ct_density c) (ct_expected_moves c i j) set)
      - expected_uses fixed m q (fun i => set_expected (ct_density c) (ct_expected_dwell c i) set) (rate c) 1) / v).
Proof. intros fixed set m c q v f C Hset W I L V Rc Iq Ev Pv Mv RC. apply (one_slope fixed set m c Hset W I L V Rc q v f C); assumption. Qed.
Print Assumptions C146_pctmc_slope.

Lemma total_ge q ps (e : expr R) : In q ps -> (degree q e <= total_degree ps e)%nat.
Proof. induction ps as [|p ps IH]; [intros []|]. unfold total_degree in *. cbn [fold_right]. intros [->|I]; [lia|]. specialize (IH I). lia. Qed.
Lemma Sum_lt n (f g : nat -> R) : (forall i, (i < n)%nat -> f i <= g i) -> (exists i, (i < n)%nat /\ f i < g i) -> Sum n f < Sum n g.
Proof.
  induction n as [|n IH]; intros H [i [Hi Hl]]; [lia|]. rewrite !Sum_S. destruct (Nat.eq_dec i n) as [->|Ne].
  - apply Rplus_le_lt_compat; [|exact Hl]. apply Sum_le. intros k Hk. apply H. lia.
  - apply Rplus_lt_le_compat; [|apply H; lia]. apply IH; [intros k Hk; apply H; lia|]. exists i. split; [lia|exact Hl].
Qed.
Lemma pow_strict x y d : 0 <= x -> x < y -> (1 <= d)%nat -> x ^ d < y ^ d.
Proof.
  intros Hx Hy. induction d as [|d IH]; intros Hd; [lia|]. destruct d as [|d]; [cbn; lra|]. cbn [pow]. cbn [pow] in IH.
  assert (0 <= x * x ^ d) by (apply Rmult_le_pos; [|apply pow_le]; assumption). specialize (IH ltac:(lia)). nra.
Qed.

(** The expected uses grow with the factor when something is exposed. *)
Lemma uses_strict fixed (m : pctmc R) q (D : nat -> R) (r : nat -> nat -> R) x y : In q (free_params fixed m) ->
  (forall i, (i < pc_n m)%nat -> 0 <= D i) -> (forall i j, (i < pc_n m)%nat -> (j < pc_n m)%nat -> 0 <= r i j) ->
  (exists i j, (i < pc_n m)%nat /\ (j < pc_n m)%nat /\ (1 <= degree q (transition m i j))%nat /\ 0 < r i j /\ 0 < D i) -> 0 <= x -> x < y ->
  expected_uses fixed m q D r x < expected_uses fixed m q D r y.
Proof.
  intros Iq HD Hr (i & j & Hi & Hj & Dq & Pr & Pd) Hx Hy.
  assert (Le : forall i j, (i < pc_n m)%nat -> (j < pc_n m)%nat -> INR (degree q (transition m i j)) * (D i * r i j * x ^ total_degree (free_params fixed m) (transition m i j))
    <= INR (degree q (transition m i j)) * (D i * r i j * y ^ total_degree (free_params fixed m) (transition m i j))).
  { intros i' j' Hi' Hj'. apply Rmult_le_compat_l; [apply pos_INR|]. apply Rmult_le_compat_l; [apply Rmult_le_pos; auto|]. apply pow_incr. lra. }
  unfold expected_uses. apply Sum_lt.
  - intros i' Hi'. apply Sum_le. intros j' Hj'. apply Le; assumption.
  - exists i. split; [exact Hi|]. apply Sum_lt; [intros j' Hj'; apply Le; assumption|]. exists j. split; [exact Hj|].
    apply Rmult_lt_compat_l; [apply lt_0_INR; lia|]. apply Rmult_lt_compat_l; [apply Rmult_lt_0_compat; assumption|].
    apply pow_strict; auto. pose proof (total_ge q (free_params fixed m) (transition m i j) Iq). lia.
Qed.

(** A round on timed traces moves each exposed parameter towards larger values
    exactly when the log-likelihood grows with it, towards smaller values exactly
    when it decreases, and leaves it exactly when its derivative is 0. *)
Theorem C146_pctmc_direction : forall (maxroot : list R -> res R) (p : nat) (fixed : list string) (pl : plan R) set (m : pctmc R) (k : nat) (mk m' : pctmc R) (ll : R) (c : ctmc R) (q : string) (v : R) (f : R -> pctmc R) (C : R -> ctmc R),
  solver maxroot -> timed_set set -> pos_times set -> wf_pctmc m -> indexed m -> learnable fixed m -> valued m -> sortParameters m fixed = Ok pl ->
  after_rounds (round_PCTMC maxroot KTimed false p pl (timed_traces set)) k m mk ->
  round_PCTMC maxroot KTimed false p pl (timed_traces set) mk = Ok (m', ll) -> realises mk c ->
  In q (free_params fixed m) -> current mk q = Some v -> 0 < v -> exposed mk c set q ->
  moves_one mk q v f -> (forall u, realises (f u) (C u)) ->
  exists g w, derivable_pt_lim (fun u => set_ll (ct_density (C u)) set) 0 g /\ current m' q = Some w /\
    (0 < g <-> v < w) /\ (g < 0 <-> w < v) /\ (g = 0 <-> w = v).
Proof.
  intros maxroot p fixed pl set m k mk m' ll c q v f C Hs Hset HT W I L V Ep R Er Rc Iq Ev Pv (i & j & Hi & Hj & Oq & Pr & Pd) Mv RC.
  destruct (C107_pctmc_timed_round maxroot p fixed pl set m k mk m' ll c Hs Hset HT W I L V Ep R Er Rc) as [_ K].
  destruct (K q v Iq Ev) as (w & Ew & z & Z0 & -> & Ze).
  destruct (timed_rounds fixed pl set maxroot p m mk k Hset HT Hs (mkPinv fixed pl m W I L V (sort_plan fixed m pl I L V Ep)) R) as ([W1 I1 L1 V1 P1] & Sh & _).
  rewrite <- (free_shape fixed m mk Sh) in Iq. pose proof (shape_n m mk Sh) as En.
  destruct (hval_total mk I1 V1) as [h Hh]. destruct (realises_same mk c h Rc (hval_realises mk h Hh)) as [nm Ec].
  pose proof (hval_wf mk h W1 Hh) as Wh. pose proof (hval_nonneg mk h V1 Hh) as Nh. pose proof (hval_n mk h Hh) as Eh.
  assert (HD : forall i, (i < pc_n mk)%nat -> 0 <= set_expected (ct_density c) (ct_expected_dwell c i) set) by (intros i' Hi'; subst c; apply (em_D_nonneg h set); auto; rewrite Eh; exact Hi').
  assert (Hr : forall i j, (i < pc_n mk)%nat -> (j < pc_n mk)%nat -> 0 <= rate c i j) by (intros i' j' Hi' Hj'; subst c; apply mget_nonneg; exact Nh).
  assert (Eu : forall x, expected_uses fixed m q (fun i => set_expected (ct_density c) (ct_expected_dwell c i) set) (rate c) x = expected_uses fixed mk q (fun i => set_expected (ct_density c) (ct_expected_dwell c i) set) (rate c) x).
  { intros x. unfold expected_uses. rewrite En, (free_shape fixed m mk Sh). apply Sum_ext. intros a Ha. apply Sum_ext. intros b Hb. rewrite (shape_trans m mk a b Sh). reflexivity. }
  assert (Eo : observed_uses m q (fun i j => set_expected (ct_density c) (ct_expected_moves c i j) set) = observed_uses mk q (fun i j => set_expected (ct_density c) (ct_expected_moves c i j) set)).
  { unfold observed_uses. rewrite En. apply Sum_ext. intros a Ha. apply Sum_ext. intros b Hb. rewrite (shape_trans m mk a b Sh). reflexivity. }
  rewrite !Eu, Eo in Ze.
  assert (St : forall x y, 0 <= x -> x < y -> expected_uses fixed mk q (fun i => set_expected (ct_density c) (ct_expected_dwell c i) set) (rate c) x < expected_uses fixed mk q (fun i => set_expected (ct_density c) (ct_expected_dwell c i) set) (rate c) y).
  { intros x y. apply uses_strict; auto. exists i, j. repeat split; auto. apply degree_pos; [|exact Oq]. apply (free_mono fixed mk q i j); assumption. }
  eexists _, (v * z). split; [apply (C146_pctmc_slope fixed set mk c q v f C); assumption|]. split; [exact Ew|].
  set (F := expected_uses fixed mk q (fun i => set_expected (ct_density c) (ct_expected_dwell c i) set) (rate c)) in *.
  assert (Ze' : F z = observed_uses mk q (fun i j => set_expected (ct_density c) (ct_expected_moves c i j) set)).
  { destruct Ze as [Ze|[_ Ze]]; [exact Ze|]. exfalso. assert (F 0 < F 1) by (apply St; lra).
    assert (0 <= F 0); [|lra]. unfold F, expected_uses. apply Sum_nonneg. intros a Ha. apply Sum_nonneg. intros b Hb.
    apply Rmult_le_pos; [apply pos_INR|]. apply Rmult_le_pos; [apply Rmult_le_pos; auto|]. apply pow_le. lra. }
  rewrite <- Ze'.
  assert (Iv : 0 < / v) by (apply Rinv_0_lt_compat; exact Pv).
  destruct (Rtotal_order z 1) as [Lt|[->|Gt]].
  - assert (F z < F 1) by (apply St; lra). assert ((F z - F 1) / v < 0) by (unfold Rdiv; nra). assert (v * z < v) by nra. repeat split; intros; lra.
  - replace ((F 1 - F 1) / v) with 0 by (unfold Rdiv; ring). repeat split; intros; lra.
  - assert (F 1 < F z) by (apply St; lra). assert (0 < (F z - F 1) / v) by (unfold Rdiv; nra). assert (v < v * z) by nra. repeat split; intros; lra.
Qed.
Print Assumptions C146_pctmc_direction.

(** If a round leaves a parameter unchanged, its derivative is 0. *)
Theorem C146_pctmc_stationary : forall (maxroot : list R -> res R) (p : nat) (fixed : list string) (pl : plan R) set (m : pctmc R) (k : nat) (mk m' : pctmc R) (ll : R) (c : ctmc R) (q : string) (v : R) (f : R -> pctmc R) (C : R -> ctmc R),
  solver maxroot -> timed_set set -> pos_times set -> pos_dwell set -> wf_pctmc m -> indexed m -> learnable fixed m -> valued m -> sortParameters m fixed = Ok pl ->
  after_rounds (round_PCTMC maxroot KTimed false p pl (timed_traces set)) k m mk ->
  round_PCTMC maxroot KTimed false p pl (timed_traces set) mk = Ok (m', ll) -> realises mk c ->
  In q (free_params fixed m) -> current mk q = Some v -> 0 < v -> current m' q = Some v ->
  moves_one mk q v f -> (forall u, realises (f u) (C u)) ->
  derivable_pt_lim (fun u => set_ll (ct_density (C u)) set) 0 0.
Proof.
  intros maxroot p fixed pl set m k mk m' ll c q v f C Hs Hset HT HDw W I L V Ep R Er Rc Iq Ev Pv Ev' Mv RC.
  destruct (Classical_Prop.classic (exposed mk c set q)) as [X|NX].
  - destruct (C146_pctmc_direction maxroot p fixed pl set m k mk m' ll c q v f C) as (g & w & Dg & Ew & _ & _ & G); auto.
    rewrite Ev' in Ew. injection Ew as <-. rewrite (proj2 G eq_refl) in Dg. exact Dg.
  - destruct (timed_rounds fixed pl set maxroot p m mk k Hset HT Hs (mkPinv fixed pl m W I L V (sort_plan fixed m pl I L V Ep)) R) as ([W1 I1 L1 V1 P1] & Sh & _).
    rewrite <- (free_shape fixed m mk Sh) in Iq.
    destruct (hval_total mk I1 V1) as [h Hh]. destruct (realises_same mk c h Rc (hval_realises mk h Hh)) as [nm Ec].
    pose proof (hval_wf mk h W1 Hh) as Wh. pose proof (hval_nonneg mk h V1 Hh) as Nh. pose proof (hval_n mk h Hh) as Eh.
    eapply dl_ext; [reflexivity| |apply (C146_pctmc_slope fixed set mk c q v f C Hset W1 I1 L1 V1 Rc Iq Ev Pv Mv RC)].
    assert (Cell : forall i j, (i < pc_n mk)%nat -> (j < pc_n mk)%nat -> degree q (transition mk i j) <> O ->
      set_expected (ct_density c) (ct_expected_moves c i j) set = 0 /\ set_expected (ct_density c) (ct_expected_dwell c i) set * rate c i j = 0).
    { intros i j Hi Hj D0. pose proof (degree_zero q _ D0) as Oq. subst c.
      change (rate {| ct_mat := ct_mat h; ct_lab := ct_lab h; ct_ini := ct_ini h; ct_name := nm |}) with (rate h) in *.
      change (set_expected (ct_density h) (ct_expected_moves h i j) set = 0 /\ set_expected (ct_density h) (ct_expected_dwell h i) set * rate h i j = 0).
      assert (Hi' : (i < ct_n h)%nat) by (rewrite Eh; exact Hi). assert (Hj' : (j < ct_n h)%nat) by (rewrite Eh; exact Hj).
      assert (Rn : 0 <= rate h i j) by (apply mget_nonneg; exact Nh). assert (Dn : 0 <= set_expected (ct_density h) (ct_expected_dwell h i) set) by (apply (em_D_nonneg h set); auto).
      assert (Xn : 0 <= set_expected (ct_density h) (ct_expected_moves h i j) set) by (apply (em_X_nonneg h set); auto).
      destruct (Req_dec (rate h i j) 0) as [Z|Z].
      - split; [|rewrite Z; ring]. destruct (Req_dec (set_expected (ct_density h) (ct_expected_moves h i j) set) 0) as [Q|Q]; [exact Q|].
        exfalso. assert (0 < mget (ct_mat h) i j); [|change (mget (ct_mat h) i j) with (rate h i j) in *; lra]. apply (em_X_supp h set); auto. lra.
      - destruct (Req_dec (set_expected (ct_density h) (ct_expected_dwell h i) set) 0) as [Q|Q].
        + split; [|rewrite Q; ring]. rewrite <- (em_X h set Hset) by assumption. apply (tDEN_zero_XI h set i j (conj Wh Nh)); auto. rewrite (em_D h set Hset) by assumption. exact Q.
        + exfalso. apply NX. exists i, j. repeat split; auto; [change (0 < rate h i j)|change (0 < set_expected (ct_density h) (ct_expected_dwell h i) set)]; lra. }
    replace (observed_uses mk q _) with 0; [replace (expected_uses fixed mk q _ _ 1) with 0; [unfold Rdiv; ring|]|]; symmetry.
    + unfold expected_uses. apply Sum_zero_ext. intros i Hi. apply Sum_zero_ext. intros j Hj. destruct (Nat.eq_dec (degree q (transition mk i j)) 0) as [->|D0]; [cbn; ring|].
      rewrite (proj2 (Cell i j Hi Hj D0)). ring.
    + unfold observed_uses. apply Sum_zero_ext. intros i Hi. apply Sum_zero_ext. intros j Hj. destruct (Nat.eq_dec (degree q (transition mk i j)) 0) as [->|D0]; [cbn; ring|].
      rewrite (proj1 (Cell i j Hi Hj D0)). ring.
Qed.
Print Assumptions C146_pctmc_stationary.

(** ** The hypotheses hold: the example of C170 with rates 1, x*y, 3 and 2*z, y
    fixed. The log-likelihood has slope -3 in x, and a round lowers x. *)
Definition exLx (u : R) : pctmc R := mkPC (pc_mat exL) (pc_lab exL) (pc_expr exL) [("x", 1 + u); ("y", 2); ("z", 1)]%string (pc_ind exL) (pc_par exL) (pc_ini exL) (pc_name exL).
Definition exCx (u : R) : ctmc R := mkCTMC [[1; (1 + u) * 2]; [3; 2]] ["init"; "a"]%string [1; 0] "ex".
Lemma exLx_moves : moves_one exL "x" 1 exLx.
Proof.
  intros u. split; [repeat split; reflexivity|]. split; [reflexivity|]. intros q' N. unfold current, parameterValue. cbn.
  destruct (String.eqb_spec q' "x"); [contradiction|]. destruct (string_dec q' "x"); [contradiction|]. reflexivity.
Qed.
Lemma exCx_realises u : realises (exLx u) (exCx u).
Proof.
  split; [reflexivity|]. split; [reflexivity|]. split; [reflexivity|]. split; [intros r [<-|[<-|[]]]; reflexivity|].
  intros i j Hi Hj. exists (fun x => if String.eqb x "y" then 2 else if String.eqb x "x" then 1 + u else 1).
  two Hi; two Hj; (split; [intros x; cbn; intros O; repeat (destruct O as [O|O]); try subst x; try tauto; reflexivity|]); unfold matR; cbn; lra.
Qed.
Example C146_pctmc_instance : exposed exL exC exT "x" /\ derivable_pt_lim (fun u => set_ll (ct_density (exCx u)) exT) 0 (-3) /\
  exists pl m' ll w, sortParameters exL ["y"%string] = Ok pl /\ round_PCTMC quad KTimed false 1 pl (timed_traces exT) exL = Ok (m', ll) /\
    current m' "x" = Some w /\ w < 1.
Proof.
  destruct exT_ok as (A & B & C & D & E). destruct ex_values as (V1 & V2 & _).
  assert (Iq : In "x"%string (free_params ["y"%string] exL)) by (cbn; auto).
  assert (Xp : exposed exL exC exT "x").
  { apply (visible_exposed ["y"%string] exT exL exC "x" (ex_coef "x")); auto using exL_wf, exL_indexed, exL_valued, exL_learnable, exL_separate, exL_realises, ex_unit.
    - repeat constructor; cbn; intuition discriminate.
    - exact exT_pos.
    - exists 1. split; [reflexivity|lra].
    - rewrite V2. lra. }
  assert (Sl : derivable_pt_lim (fun u => set_ll (ct_density (exCx u)) exT) 0 (-3)).
  { assert (Wc : wf_ctmc exC).
    { destruct (hval_total exL exL_indexed exL_valued) as [h Hh]. destruct (realises_same exL exC h exL_realises (hval_realises exL h Hh)) as [nm Ec].
      rewrite Ec. exact (hval_wf exL h exL_wf Hh). }
    assert (Cn : forall i j, (i < 2)%nat -> (j < 2)%nat -> set_expected (ct_density exC) (ct_expected_moves exC i j) exT = ct_moves_seen (nth i (pc_lab exL) EmptyString) (nth j (pc_lab exL) EmptyString) exT /\
      set_expected (ct_density exC) (ct_expected_dwell exC i) exT = ct_time_seen (nth i (pc_lab exL) EmptyString) exT).
    { intros i j Hi Hj. apply (seen_counts exC exT Wc); auto; [repeat constructor; cbn; intuition discriminate|exact exT_pos]. }
    eapply dl_ext; [reflexivity| |apply (C146_pctmc_slope ["y"%string] exT exL exC "x" 1 exLx exCx); auto using exL_wf, exL_indexed, exL_valued, exL_learnable, exL_realises, exLx_moves, exCx_realises; try reflexivity; lra].
    replace (observed_uses exL "x" _) with 3; [replace (expected_uses _ exL "x" _ _ 1) with 6; [lra|]|]; symmetry.
    - rewrite <- V2. unfold expected_uses, exposure. apply Sum_ext. intros i Hi. apply Sum_ext. intros j Hj. rewrite (proj2 (Cn i j Hi Hj)), pow1. unfold ex_coef.
      clear - Hi Hj. two Hi; two Hj; unfold rate, matR; cbn; ring.
    - rewrite <- V1. unfold observed_uses, moves_with. apply Sum_ext. intros i Hi. apply Sum_ext. intros j Hj. rewrite (proj1 (Cn i j Hi Hj)). reflexivity. }
  split; [exact Xp|]. split; [exact Sl|].
  assert (Ep : exists pl, sortParameters exL ["y"%string] = Ok pl) by (eexists; reflexivity). destruct Ep as [pl Ep].
  destruct (hval_total exL exL_indexed exL_valued) as [h Hh]. destruct (realises_same exL exC h exL_realises (hval_realises exL h Hh)) as [nm Ec].
  assert (Pos : forall tr t, In (tr, t) exT -> 0 < ct_density h tr) by (intros tr t I; pose proof (exT_pos tr t I) as P; rewrite Ec in P; exact P).
  destruct (timed_round_ok exL ["y"%string] pl h exT Hh exL_wf exL_indexed (exL_learnable _) exL_valued (sort_plan _ _ _ exL_indexed (exL_learnable _) exL_valued Ep) A quad 1) as (m' & ll & Er); auto.
  - revert Ep. cbn. intros [= <-]. reflexivity.
  - exists (["init"; "a"], [1])%string, 2%Z. split; [left; reflexivity|]. apply (Pos _ 2%Z). left. reflexivity.
  - destruct (C146_pctmc_direction quad 1 ["y"%string] pl exT exL 0 exL m' ll exC "x" 1 exLx exCx) as (g & w & Dg & Ew & _ & G & _); auto using quad_solver, exL_wf, exL_indexed, exL_valued, exL_learnable, exL_realises, exLx_moves, exCx_realises, ar_start; try lra.
    exists pl, m', ll, w. repeat split; auto. apply G. rewrite (uniqueness_limite _ 0 g (-3) Dg Sl). lra.
Qed.
