(** Learning of parametric CTMCs: the gain of a round is positive unless the
    parameters with a positive exposure are unchanged. *)
From Coq Require Import String ZArith Bool Reals List Lia Lra Psatz FunctionalExtensionality.
From Verif Require Import Num Py SNum SPath LSum MSet MModels MCtor MLik MBW MPctmc SPctmc LPctmc LCtor LFB LEM SBW SExp LBW LBWSet LBWMC SLik LLik LEMGen LBWMDP LBWCT LBWPath LLik2 PBWCT PPctmc LMM MPLearn SPLearn LPLearn LPLearn2 LPLearn3 LPLearn4 LBWLoop LPLearn5.
Import ListNotations.
Local Open Scope R_scope.

Section EMG.
  Variables (m m' : ctmc R) (set : list ((list string * list R) * Z)).
  Notation n := (ct_n m).
  Notation X := (fun s s' => set_expected (ct_density m) (ct_expected_moves m s s') set).
  Notation D := (fun s => set_expected (ct_density m) (ct_expected_dwell m s) set).
  Hypothesis Hwf : wf_ctmc m.
  Hypothesis Hnn : nonneg_mat (ct_mat m).
  Hypothesis Hsq' : square n (ct_mat m').
  Hypothesis Hnn' : nonneg_mat (ct_mat m').
  Hypothesis Hla' : ct_lab m' = ct_lab m.
  Hypothesis Hin' : ct_ini m' = ct_ini m.
  Hypothesis Hset : timed_set set.
  Hypothesis HT : pos_times set.
  Hypothesis Hz : forall s s', (s < n)%nat -> (s' < n)%nat -> rate m s s' = 0 -> rate m' s s' = 0.
  Hypothesis Hs : forall s s', (s < n)%nat -> (s' < n)%nat -> 0 < X s s' -> 0 < rate m' s s'.
  Lemma ct_em_gain : set_ll (ct_density m) set + Sum n (fun s => Sum n (fun s' => X s s' * ln (rate m' s s' / rate m s s') - D s * (rate m' s s' - rate m s s'))) <= set_ll (ct_density m') set.
  Proof.
    pose proof (em_n' m m' Hsq') as En.
    assert (P' : forall tr t, In (tr, t) set -> Pof n (vget (ct_ini m)) (tW m') (tf m) tr = ct_density m' tr).
    { intros tr t I. rewrite <- tP_path by apply (Hset tr t I). rewrite En, Hin'. unfold Pof, tf. rewrite Hla'. reflexivity. }
    assert (P0 : forall tr t, In (tr, t) set -> tP m tr = ct_density m tr) by (intros tr t I; apply tP_path; apply (Hset tr t I)).
    rewrite <- (set_ll_ext _ _ set P0), <- (set_ll_ext _ _ set P').
    match goal with |- _ + ?G <= _ => enough (Q : set_ll (tP m) set + G <= set_ll (Pof n (vget (ct_ini m)) (tW m') (tf m)) set /\
                forall tr t, In (tr, t) set -> (0 < tP m tr <-> 0 < Pof n (vget (ct_ini m)) (tW m') (tf m) tr)) by apply Q end.
    apply (em_gain n set ots (tf m) (vget (ct_ini m)) (tA m) (tb m) (vget (ct_ini m)) (tA m') (tb m') HT (t_okf m set) (t_oka m Hwf) (t_oka m Hwf) (t_HA m set Hnn)).
    - intros x t o _ _. split; [intros s s' Q1 Q2; apply mget_nonneg; exact Hnn'|]. intros s Q. unfold tb. pose proof (exp_pos (- (exit_rate m' s * snd o))).
      destruct (LBWMDP.is_label_01 (ct_lab m') (fst o) s) as [-> | ->]; lra.
    - intros x t k d s s' I Px Hk Hs1 Hs2 Pk.
      destruct (xi_factors n set ots (tf m) (vget (ct_ini m)) (tA m) (tb m) (t_okf m set) (t_oka m Hwf) (t_HA m set Hnn) x t k d s s' I Hk Hs1 Hs2 Pk) as [Pe Pb]. split.
      + apply (Hs s s' Hs1 Hs2). cbv beta. rewrite <- (em_X m set Hset) by assumption.
        apply (XI_pos n set (vget (ct_ini m)) (tW m) (tf m) HT) with (x := x) (t := t) (k := k); auto using t_oka.
        * intros y u Iy. apply (t_okw m set Hnn y u Iy).
        * intros y u Iy. apply (t_okf m set y u Iy).
        * intros y z Iz. apply (ones1_nonneg (tW m) y z Iz).
        * unfold tW. rewrite ew_length. exact Hk.
        * unfold ones1. rewrite nth_indep with (d' := 1) by (rewrite repeat_length; unfold tW; rewrite ew_length; assumption). rewrite nth_repeat. lra.
      + unfold tb in *. rewrite Hla'. pose proof (exp_pos (- (exit_rate m' s * snd (nth k (ots x) d)))).
        destruct (LBWMDP.is_label_01 (ct_lab m) (fst (nth k (ots x) d)) s) as [Z|Z]; rewrite Z in *; lra.
    - intros x t o s s' I Io Hs1 Hs2 Z. apply Rmult_integral in Z. unfold tb in *. pose proof (exp_pos (- (exit_rate m s * snd o))). destruct Z as [Z|Z].
      + rewrite Hla'. apply Rmult_integral in Z. destruct Z as [Z|Z]; [rewrite Z; ring|lra].
      + unfold tA in *. change (matR (ct_mat m') s s') with (rate m' s s'). rewrite (Hz s s') by assumption. ring.
    - auto.
    - intros s Q1 Q. apply (IN_supp n set (vget (ct_ini m)) (tW m) (tf m)) in Q; auto using t_oka.
    - fold (tW m). rewrite (ini_same_gain n set (vget (ct_ini m)) (tW m) (tf m)), Rplus_0_l.
      rewrite <- Sum_plus. apply Req_le. apply Sum_ext. intros s Hs1. rewrite (t_emit_gain m set m' Hla' s Hs1).
      rewrite (Sum_ext n (fun s' => trans_gain n set ots (tf m) (vget (ct_ini m)) (tA m) (tb m) (tA m') s s') (fun s' => X s s' * ln (rate m' s s' / rate m s s'))).
      2:{ intros s' Hs2. rewrite (t_trans_gain m set m' En s s' Hs1 Hs2), (em_X m set Hset) by assumption. reflexivity. }
      rewrite (t_exit m m' s Hsq' Hs1), (t_exit m m s) by (auto; apply Hwf). rewrite (em_D m set Hset) by exact Hs1.
      rewrite Sum_minus, (Sum_scal_l n (D s)), (Sum_minus n (fun s' => rate m' s s') (fun s' => rate m s s')).
      change (Sum n (mget (ct_mat m') s)) with (Sum n (fun s' => rate m' s s')). change (Sum n (mget (ct_mat m) s)) with (Sum n (fun s' => rate m s s')). cbv beta. lra.
  Qed.
End EMG.

Lemma ln_lt_sub1 z : 0 < z -> z <> 1 -> ln z < z - 1.
Proof.
  intros P N. assert (L : ln z <> 0) by (intros L; apply N; apply ln_inv; [exact P|lra|rewrite ln_1; exact L]).
  pose proof (exp_ineq1 (ln z) L) as Q. rewrite exp_ln in Q by exact P. lra.
Qed.

Section MMS.
  Context {T A : Type}.
  Variables (L : list T) (Ps : list A) (N D r r' : T -> R) (a : A -> T -> nat) (y : A -> R).
  Notation deg := (LMM.deg Ps a).
  Notation share := (LMM.share Ps D r a y).
  Hypothesis HN : forall t, In t L -> 0 <= N t.
  Hypothesis HD : forall t, In t L -> 0 <= D t.
  Hypothesis Hr : forall t, In t L -> 0 <= r t.
  Hypothesis HNr : forall t, In t L -> 0 < N t -> 0 < r t.
  Hypothesis Hy : forall p, In p Ps -> 0 <= y p.
  Hypothesis Hr' : forall t, In t L -> r' t = r t * prodL Ps (fun p => y p ^ a p t).
  Hypothesis Heq : forall p, In p Ps -> y p = 1 \/
    sumL L (fun t => INR (a p t) * (D t * r t * y p ^ deg t)) = sumL L (fun t => INR (a p t) * N t).

  Lemma mms_term p t : In p Ps -> In t L ->
    0 <= INR (a p t) * (D t * r t * y p ^ deg t) * ln (y p) - share p t /\
    (y p <> 1 -> (0 < a p t)%nat -> 0 < D t * r t -> 0 < INR (a p t) * (D t * r t * y p ^ deg t) * ln (y p) - share p t).
  Proof.
    intros Ip It. unfold LMM.share. pose proof (deg_ge Ps a p t Ip) as Ge. destruct (Nat.eq_dec (a p t) 0) as [Za|Na].
    { rewrite Za. split; [destruct (deg t); cbn [INR]; unfold Rdiv; lra|lia]. }
    destruct (deg t) as [|k] eqn:Ed; [lia|]. rewrite <- Ed in *.
    assert (Cp : 0 < INR (deg t)) by (apply lt_0_INR; lia). set (c := INR (deg t)) in *.
    assert (Ap : 0 < INR (a p t)) by (apply lt_0_INR; lia). assert (DR : 0 <= D t * r t) by (apply Rmult_le_pos; auto).
    assert (B : 0 <= y p ^ deg t * ln (y p) - (y p ^ deg t - 1) / c /\ (y p <> 1 -> 0 < y p ^ deg t * ln (y p) - (y p ^ deg t - 1) / c)).
    { pose proof (Hy p Ip) as Y0. destruct (Req_dec (y p) 0) as [Z|Z].
      - rewrite Z, pow_i by lia. assert (0 < / c) by (apply Rinv_0_lt_compat; exact Cp). unfold Rdiv. split; [|intros _]; lra.
      - assert (Yp : 0 < y p) by lra. assert (Pp : 0 < y p ^ deg t) by (apply pow_lt; exact Yp). set (u := y p ^ deg t) in *.
        assert (Lu : c * ln (y p) = ln u) by (unfold u, c; rewrite ln_pow' by exact Yp; reflexivity).
        assert (Eu : u * ln (y p) - (u - 1) / c = / c * (u * (/ u - 1 - ln (/ u)))).
        { rewrite ln_Rinv by exact Pp. rewrite <- Lu. field. split; lra. }
        rewrite Eu. assert (Ic : 0 < / c) by (apply Rinv_0_lt_compat; exact Cp). split.
        + apply Rmult_le_pos; [lra|]. apply Rmult_le_pos; [lra|]. pose proof (ln_le_sub1 (/ u) (Rinv_0_lt_compat _ Pp)). lra.
        + intros N1. apply Rmult_lt_0_compat; [exact Ic|]. apply Rmult_lt_0_compat; [exact Pp|].
          assert (Nu : / u <> 1).
          { intros E. assert (u = 1) by (rewrite <- (Rinv_inv u), E; apply Rinv_1). apply N1. apply ln_inv; [exact Yp|lra|]. rewrite ln_1. rewrite H, ln_1 in Lu. apply Rmult_integral in Lu. destruct Lu; lra. }
          pose proof (ln_lt_sub1 (/ u) (Rinv_0_lt_compat _ Pp) Nu). lra. }
    replace (INR (a p t) * (D t * r t * y p ^ deg t) * ln (y p) - D t * r t * (INR (a p t) * (y p ^ deg t - 1)) / c)
      with (INR (a p t) * (D t * r t) * (y p ^ deg t * ln (y p) - (y p ^ deg t - 1) / c)) by (unfold Rdiv; ring).
    split; [apply Rmult_le_pos; [apply Rmult_le_pos; lra|apply B]|]. intros N1 _ Q. apply Rmult_lt_0_compat; [apply Rmult_lt_0_compat; assumption|]. apply B. exact N1.
  Qed.
  Lemma mms_param p t0 : In p Ps -> In t0 L -> (0 < a p t0)%nat -> 0 < D t0 * r t0 -> y p <> 1 ->
    0 < sumL L (fun t => INR (a p t) * N t * ln (y p)) - sumL L (fun t => share p t).
  Proof.
    intros Ip It Pa Pd N1. destruct (Heq p Ip) as [E|E]; [contradiction|]. rewrite sumL_scal_r, <- E, <- sumL_scal_r, <- sumL_minus.
    apply (sumL_pos L _ t0); auto; [intros t I; apply mms_term; assumption|]. apply mms_term; assumption.
  Qed.
  Lemma mms_gain p t0 : In p Ps -> In t0 L -> (0 < a p t0)%nat -> 0 < D t0 * r t0 -> y p <> 1 ->
    0 < sumL L (fun t => N t * ln (r' t / r t) - D t * (r' t - r t)).
  Proof.
    intros Ip It Pa Pd N1.
    rewrite sumL_minus. rewrite (sumL_ext L (fun t => N t * ln (r' t / r t)) (fun t => sumL Ps (fun p => INR (a p t) * N t * ln (y p)))).
    2:{ intros t I. apply (mm_log L Ps N D r r' a y); auto. }
    assert (B : sumL L (fun t => D t * (r' t - r t)) <= sumL L (fun t => sumL Ps (fun p => share p t))) by (apply sumL_le; intros t I; apply (mm_rate L Ps D r r' a y); auto).
    rewrite (sumL_swap L Ps (fun t p => share p t)) in B. rewrite (sumL_swap L Ps (fun t p => INR (a p t) * N t * ln (y p))).
    assert (Q : 0 < sumL Ps (fun p => sumL L (fun t => INR (a p t) * N t * ln (y p)) - sumL L (fun t => share p t))).
    { apply (sumL_pos Ps _ p); auto; [|apply (mms_param p t0); assumption]. intros q Iq. apply (mm_param L Ps N D r a y); auto. }
    rewrite sumL_minus in Q. lra.
  Qed.
End MMS.
