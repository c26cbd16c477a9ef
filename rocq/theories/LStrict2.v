(** Two Markov chains with the same frame: how much the likelihood gains. *)
From Coq Require Import String ZArith Bool Reals List Lia Lra Psatz FunctionalExtensionality.
From Verif Require Import Num Py SNum SPath LSum MSet MModels MCtor MLik MBW MPctmc SPctmc LPctmc LCtor LFB LEM SBW SExp LBW LBWSet LBWMC SLik LLik LEMGen LBWMDP LBWCT LBWPath LLik2 PLik PBWMC PBWCT PBWCTU PPctmc LMM MPLearn SPLearn LPLearn LPLearn2 LPLearn3 LPLearn4 LPLearn5 LPLearn6 LBWLoop LStrict.
Import ListNotations.
Local Open Scope R_scope.

Section MCEMG.
  Variables (m m' : mc R) (set : list (list string * Z)).
  Notation n := (mc_n m).
  Notation a0 := (vget (mc_ini m)).
  Notation Wm := (mc_ws m).
  Notation W' := (mc_ws m').
  Notation fo := (fun (_ : list string) (_ : nat) => 1).
  Notation P1 := (Pof n a0 Wm fo).
  Notation mcP := (mcP m).
  Notation mcNUM := (mcNUM m set).
  Hypothesis Hnn : nonneg_mat (mc_mat m).
  Hypothesis Hini : nonneg (mc_ini m).
  Hypothesis HT : pos_times set.
  Hypothesis Hlab : mc_lab m' = mc_lab m.
  Hypothesis Hnn' : nonneg_mat (mc_mat m').
  Hypothesis Hz : forall s s', (s < n)%nat -> (s' < n)%nat -> mget (mc_mat m) s s' = 0 -> mget (mc_mat m') s s' = 0.
  Hypothesis Hsp : forall s s', (s < n)%nat -> (s' < n)%nat -> 0 < mcNUM s s' -> 0 < mget (mc_mat m') s s'.

  Lemma e_em_gain : set_ll mcP set + Sum n (fun s => Sum n (fun s' => mcNUM s s' * ln (mget (mc_mat m') s s' / mget (mc_mat m) s s'))) <= set_ll (fun tr => tot n a0 (W' tr) (fun _ => 1)) set.
  Proof.
    assert (HI : forall s, (s < n)%nat -> 0 < IN n set a0 Wm fo s -> 0 < a0 s).
    { intros s Hs P. pose proof (mc_oka m Hini s Hs). destruct (Req_dec (a0 s) 0) as [E|E]; [exfalso|lra].
      unfold IN in P. rewrite (psum_ext n set a0 Wm fo _ (fun _ _ => 0 * 0)) in P; [rewrite psum_scal_r in P; lra|].
      intros. rewrite E. ring. }
    change (fun tr => tot n a0 (W' tr) (fun _ => 1)) with (Pof' n fo a0 W').
    change mcP with P1.
    rewrite (set_ll_improve n set a0 Wm fo HT) with (a' := a0) (W' := W'); intros; eauto using mc_okw, e_okw', okf1, mc_oka, e_supp, e_zero_prob.
    apply Rplus_le_compat_l.
    eapply Rle_trans; [|apply (em_set n set a0 Wm fo HT); intros; eauto using mc_okw, e_okw', okf1, mc_oka, e_supp].
    rewrite <- (Rplus_0_l (Sum n _)). apply Rplus_le_compat.
    + apply Req_le. symmetry. apply Sum_zero_ext. intros s Hs.
      destruct (Req_dec (a0 s) 0) as [E|E].
      * enough (IN n set a0 Wm fo s = 0) as -> by ring.
        unfold IN. rewrite (psum_ext n set a0 Wm fo _ (fun _ _ => 0 * 0)); [rewrite psum_scal_r; ring|]. intros. rewrite E. ring.
      * replace (a0 s / a0 s) with 1 by (field; exact E). rewrite ln_1. ring.
    + apply Req_le. apply Sum_ext. intros s Q1. apply Sum_ext. intros s' Q2.
        unfold LBWMC.mcNUM, XI. rewrite <- psum_scal_r. apply psum_ext. intros tr t I P.
        replace (wsum (xi n a0 (Wm tr) (fun _ => 1) s s') (lrs (Wm tr) (W' tr) s s'))
          with (wsum (xi n a0 (Wm tr) (fun _ => 1) s s') (ones1 Wm tr) * ln (mget (mc_mat m') s s' / mget (mc_mat m) s s')); [ring|].
        unfold ones1. rewrite wsum_ones1 by apply xi_length.
        rewrite <- (wsum_const (xi n a0 (Wm tr) (fun _ => 1) s s') (repeat (ln (mget (mc_mat m') s s' / mget (mc_mat m) s s')) (length (Wm tr)))).
        2:{ intros y Iy. apply repeat_spec in Iy. exact Iy. }
        2:{ rewrite xi_length, repeat_length. lia. }
        clear - Q1 Q2 Hlab Hnn Hini. generalize a0 (mc_oka m Hini). generalize tr. induction tr0 as [|o l IH]; intros b Hb; [reflexivity|].
        cbn [mc_ws map length repeat xi lrs zipwith]. rewrite !wsum_cons. f_equal.
        -- destruct (negb (o =? lab (mc_lab m) s)%string) eqn:E.
           ++ assert (mc_tau m s s' o = 0) as -> by (unfold mc_tau; rewrite E; reflexivity). ring.
           ++ unfold mc_tau. rewrite Hlab, E. reflexivity.
        -- apply IH. apply step_nonneg; [exact Hb|]. intros i j Hi Hj. unfold mc_tau. destruct (negb _); nR; [lra|]. apply mget_nonneg; exact Hnn.
  Qed.
End MCEMG.

(** The gain of a round on untimed traces is positive unless the parameters used in
    the states that are visited are unchanged. *)
Lemma untimed_strict fixed pl (set : list (list string * Z)) maxroot p (m m' : pctmc R) ll q i j h h' :
  pos_times set -> solver maxroot -> pinv fixed pl m -> live h ->
  round_PCTMC maxroot KGeneric false p pl (map (fun st => (uview (fst st), snd st)) set) m = Ok (m', ll) ->
  hval m = Ok h -> hval m' = Ok h' ->
  In q (free_params fixed m) -> (i < pc_n m)%nat -> (j < pc_n m)%nat -> occurs q (transition m i j) -> 0 < rate h i j ->
  0 < set_expected (mc_trace_prob_move (jump_chain h)) (mc_expected_visits (jump_chain h) i) set ->
  current m' q = current m q \/ set_ll (mc_trace_prob_move (jump_chain h)) set < set_ll (mc_trace_prob_move (jump_chain h')) set.
Proof.
  intros HT Hsol Pm Hlive Er Hh Hh' Iq Hi Hj Oq Pr Pv. pose proof Pm as [Hwf Hidx Hlearn Hval Hplan].
  assert (Pm' : pinv fixed pl m').
  { apply (untimed_step fixed pl set maxroot p m m' ll HT Hsol Pm); [|exact Er]. intros h0 E. rewrite Hh in E. injection E as <-. exact Hlive. }
  destruct Pm' as [Hwf' Hidx' _ Hval' _].
  destruct (untimed_round m fixed pl h set Hh Hwf Hidx Hlearn Hval Hplan HT maxroot p m' ll Hsol Er) as (Sh & L & O & z & Z).
  assert (Z' : forall q, In q (free_params fixed m) -> 0 <= z q /\ current m' q = Some (LPctmc.total (pc_val m) q * z q) /\
     (z q = 1 \/ sumL (list_prod (seq 0 (pc_n m)) (seq 0 (pc_n m))) (fun y => INR (adeg m fixed q y) * ((set_expected (mc_trace_prob_move (jump_chain h)) (mc_expected_visits (jump_chain h) (fst y)) set / exit_rate h (fst y)) * mget (ct_mat h) (fst y) (snd y) * z q ^ tdeg m fixed y)) =
                 sumL (list_prod (seq 0 (pc_n m)) (seq 0 (pc_n m))) (fun y => INR (adeg m fixed q y) * set_expected (mc_trace_prob_move (jump_chain h)) (mc_expected_moves (jump_chain h) (fst y) (snd y)) set))) by (intros q' I; destruct (Z q' I) as (A & B & [[C _]|C]); auto).
  clear Z; rename Z' into Z.
  destruct (Req_dec (z q) 1) as [E1|N1].
  { left. destruct (Z q Iq) as (_ & -> & _). rewrite E1, Rmult_1_r. destruct Hval as [Vv _]. apply free_In in Iq. destruct (Vv q (proj1 Iq)) as (v & E & _). unfold current, parameterValue in *. unfold LPctmc.total. rewrite E. reflexivity. }
  right.
  assert (En : ct_n h = pc_n m) by (apply hval_n; exact Hh).
  assert (W : wf_ctmc h) by (apply (hval_wf m); assumption).
  assert (W' : wf_ctmc h') by (apply (hval_wf m'); assumption).
  assert (NN : nonneg_mat (ct_mat h)) by (apply (hval_nonneg m); assumption).
  assert (NN' : nonneg_mat (ct_mat h')) by (apply (hval_nonneg m'); assumption).
  assert (En' : ct_n h' = ct_n h) by (rewrite (hval_n m' h' Hh'), En; apply (shape_expr m m' Sh)).
  pose proof (hval_realises m h Hh) as Rh. pose proof (hval_realises m' h' Hh') as Rh'.
  assert (El : ct_lab h' = ct_lab h) by (destruct Rh as (-> & _), Rh' as (-> & _); apply Sh).
  assert (Ei : ct_ini h' = ct_ini h) by (destruct Rh as (_ & -> & _), Rh' as (_ & -> & _); apply Sh).
  set (N := fun y : nat * nat => set_expected (mc_trace_prob_move (jump_chain h)) (mc_expected_moves (jump_chain h) (fst y) (snd y)) set) in *.
  set (D := fun s => set_expected (mc_trace_prob_move (jump_chain h)) (mc_expected_visits (jump_chain h) s) set / exit_rate h s) in *.
  assert (JN : nonneg_mat (mc_mat (jump_chain h))) by (apply jc_nonneg; exact NN).
  assert (JI : nonneg (mc_ini (jump_chain h))) by (apply W).
  assert (EN : forall s s', (s < ct_n h)%nat -> (s' < ct_n h)%nat -> mcNUM (jump_chain h) set s s' = N (s, s')) by (intros s s' R1 R2; unfold N; cbn [fst snd]; apply mcNUM_path; rewrite jc_n; assumption).
  assert (JG : forall s s', mget (mc_mat (jump_chain h)) s s' = jump h s s') by (intros; apply jc_mat; exact W).
  assert (JG' : forall s s', mget (mc_mat (jump_chain h')) s s' = jump h' s s') by (intros; apply jc_mat; exact W').
  assert (HN : forall y, inrange m y -> 0 <= N y).
  { intros [s s'] [R1 R2]. cbn [fst snd] in *. rewrite <- En in R1, R2. rewrite <- EN by assumption. apply mcNUM_nonneg; auto; rewrite jc_n; assumption. }
  assert (EV : forall s, (s < ct_n h)%nat -> D s = Sum (ct_n h) (fun s' => N (s, s')) / exit_rate h s).
  { intros s R1. unfold D. f_equal. rewrite <- mcDEN_path by (rewrite jc_n; exact R1). rewrite mcDEN_sum by (rewrite jc_n; exact R1). rewrite jc_n. apply Sum_ext. intros s' R2. apply EN; assumption. }
  assert (HD : forall s, (s < pc_n m)%nat -> 0 <= D s).
  { intros s R1. rewrite <- En in R1. rewrite EV by exact R1. apply Rdiv_le_0_compat; [|apply Hlive; exact R1]. apply Sum_nonneg. intros s' R2. apply HN. split; cbn [fst snd]; rewrite <- En; assumption. }
  assert (HNr : forall y, inrange m y -> 0 < N y -> 0 < mget (ct_mat h) (fst y) (snd y)).
  { intros [s s'] [R1 R2] P. cbn [fst snd] in *. rewrite <- En in R1, R2. rewrite <- EN in P by assumption. apply mcNUM_supp in P; auto.
    rewrite JG in P. unfold jump in P. pose proof (mget_nonneg (ct_mat h) s s' NN). destruct (Req_dec (mget (ct_mat h) s s') 0) as [E|E]; [|lra].
    change (matR (ct_mat h) s s') with (mget (ct_mat h) s s') in P. rewrite E in P. unfold Rdiv in P. lra. }
  assert (Hsupp : forall s s', (s < ct_n h)%nat -> (s' < ct_n h)%nat -> 0 < N (s, s') -> 0 < mget (ct_mat h') s s').
  { intros s s' R1 R2 P. rewrite En in R1, R2. apply (gain_supp fixed m m' z h h' Hidx Hlearn Hval Sh O Hh Hh' N D HN HNr Z) with (y := (s, s')); auto. split; assumption. }
  assert (Hex : forall s s', (s < ct_n h)%nat -> (s' < ct_n h)%nat -> 0 < mget (ct_mat h') s s' -> 0 < exit_rate h' s).
  { intros s s' R1 R2 P. apply (um_exit m' h' Hh' Hwf' Hval') with (s' := s'); try (rewrite En'; assumption). lra. }
  assert (Pjc : forall tr, tot (mc_n (jump_chain h)) (vget (mc_ini (jump_chain h))) (mc_ws (jump_chain h') tr) (fun _ => 1) = mc_trace_prob_move (jump_chain h') tr).
  { intros tr. rewrite <- mcP_path. unfold mcP. rewrite !jc_n, En'. cbn [mc_ini jump_chain]. rewrite Ei. reflexivity. }
  assert (G : 0 < sumL (list_prod (seq 0 (pc_n m)) (seq 0 (pc_n m))) (fun y => N y * ln (mget (ct_mat h') (fst y) (snd y) / mget (ct_mat h) (fst y) (snd y)) - D (fst y) * (mget (ct_mat h') (fst y) (snd y) - mget (ct_mat h) (fst y) (snd y)))).
  { apply (mms_gain _ (free_params fixed m) N (fun y => D (fst y)) (fun y => mget (ct_mat h) (fst y) (snd y)) (fun y => mget (ct_mat h') (fst y) (snd y)) (adeg m fixed) z) with (p := q) (t0 := (i, j)); auto.
    - intros t I. apply HN, pairs_In, I.
    - intros t I. apply HD. apply pairs_In in I. apply I.
    - intros t I. apply (g_nonneg m h Hidx Hval Hh). exact I.
    - intros t I. apply HNr, pairs_In, I.
    - intros q' Iq'. apply (Z q' Iq').
    - intros t I. apply (g_hr fixed m m' z h h' Hidx Hlearn Hval Sh O Hh Hh' N D Z). exact I.
    - intros q' Iq'. apply (g_eq fixed m m' z h N D Z). exact Iq'.
    - apply pairs_In. split; assumption.
    - rewrite adeg_free by exact Iq. apply (degree_pos q); [|exact Oq]. destruct (Hlearn i j Hi Hj) as [M|M]; [exact M|]. exfalso. apply free_In in Iq. apply (proj2 Iq). apply M. exact Oq.
    - cbn [fst snd]. apply Rmult_lt_0_compat; [|exact Pr]. unfold D. apply Rdiv_lt_0_compat; [exact Pv|]. apply Hlive. rewrite En. exact Hi. }
  assert (G1 : set_ll (mcP (jump_chain h)) set + Sum (ct_n h) (fun s => Sum (ct_n h) (fun s' => mcNUM (jump_chain h) set s s' * ln (mget (mc_mat (jump_chain h')) s s' / mget (mc_mat (jump_chain h)) s s'))) <=
    set_ll (fun tr => tot (mc_n (jump_chain h)) (vget (mc_ini (jump_chain h))) (mc_ws (jump_chain h') tr) (fun _ => 1)) set).
  { rewrite <- (jc_n h). apply (e_em_gain (jump_chain h) (jump_chain h') set JN JI HT El).
    - apply jc_nonneg. exact NN'.
    - intros s s' R1 R2 E. rewrite jc_n in R1, R2. rewrite JG in E. rewrite JG'. unfold jump in *.
      assert (E1 : mget (ct_mat h) s s' = 0).
      { apply Rmult_integral in E. destruct E as [E|E]; [exact E|]. exfalso. apply (Rinv_neq_0_compat (exit_rate h s)); [|exact E]. specialize (Hlive s R1). lra. }
      change (matR (ct_mat h') s s') with (mget (ct_mat h') s s'). rewrite En in R1, R2.
      pose proof (gain_zero fixed m m' z h h' Hidx Hlearn Hval Sh O Hh Hh' N D Z (s, s') (conj R1 R2) E1) as E2. cbn [fst snd] in E2. rewrite E2. unfold Rdiv. ring.
    - intros s s' R1 R2 P. rewrite jc_n in R1, R2. rewrite EN in P by assumption. rewrite JG'. unfold jump. pose proof (Hsupp s s' R1 R2 P) as Q. apply Rdiv_lt_0_compat; [exact Q|].
      apply (Hex s s'); assumption. }
  rewrite <- (set_ll_ext _ _ set (fun tr t I => mcP_path (jump_chain h) tr)), <- (set_ll_ext _ _ set (fun tr t I => Pjc tr)).
  apply Rlt_le_trans with (2 := G1). match goal with |- ?x < ?x + ?g => assert (0 < g); [|lra] end.
  rewrite sumL_prod in G. apply Rlt_le_trans with (1 := G). rewrite En. apply Sum_le. intros s R1. rewrite <- En in R1. rewrite <- En.
  rewrite (Sum_ext (ct_n h) (fun s' => mcNUM (jump_chain h) set s s' * _) (fun s' => N (s, s') * ln (mget (ct_mat h') s s' / exit_rate h' s / (mget (ct_mat h) s s' / exit_rate h s)))).
  2:{ intros s' R2. rewrite EN, JG, JG' by assumption. reflexivity. }
  match goal with |- ?a <= _ => change (Sum (ct_n h) (fun s' => N (s, s') * ln (mget (ct_mat h') s s' / mget (ct_mat h) s s') - D s * (mget (ct_mat h') s s' - mget (ct_mat h) s s')) <= Sum (ct_n h) (fun s' => N (s, s') * ln (mget (ct_mat h') s s' / exit_rate h' s / (mget (ct_mat h) s s' / exit_rate h s)))) end.
  rewrite EV by exact R1. apply (jump_gain (ct_n h) (fun s' => N (s, s')) (mget (ct_mat h) s) (mget (ct_mat h') s)).
  - intros s' R2. apply HN. split; cbn [fst snd]; rewrite <- En; assumption.
  - apply Hlive. exact R1.
  - intros s' R2 P. split; [apply (HNr (s, s')); auto; split; cbn [fst snd]; rewrite <- En; assumption|apply Hsupp; assumption].
  - unfold exit_rate. rewrite (row_sum_Sum (ct_mat h) (ct_n h) s) by (auto; apply W). reflexivity.
  - unfold exit_rate. rewrite <- En'. rewrite (row_sum_Sum (ct_mat h') (ct_n h') s) by (rewrite ?En'; auto; rewrite <- En'; apply W'). reflexivity.
  - intros. apply mget_nonneg. exact NN'.
Qed.
