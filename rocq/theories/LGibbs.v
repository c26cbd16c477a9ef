(** Gibbs' inequality and the laws of traces of one length. *)
From Coq Require Import String ZArith Bool Reals List Lia Lra.
From Verif Require Import Num Py SNum SPath LSum MSet SSet LSet MModels MLik MBW LFB LEM SBW LBW LBWSet SLik LPath LLik LLik2 LPLearn3 PLik SGibbs.
Import ListNotations.
Local Open Scope R_scope.

Lemma ln_eq_sub1 z : 0 < z -> ln z = z - 1 -> z = 1.
Proof.
  intros P E. destruct (Req_dec (ln z) 0) as [Z|N]; [lra|]. pose proof (exp_ineq1 (ln z) N) as H. rewrite exp_ln in H by exact P. lra.
Qed.

Section Gibbs.
  Context {A : Type} (L : list A) (p q : A -> R).
  Hypothesis p0 : forall a, In a L -> 0 <= p a.
  Hypothesis q0 : forall a, In a L -> 0 <= q a.
  Hypothesis pq : forall a, In a L -> 0 < p a -> 0 < q a.
  Hypothesis p1 : sumL L p = 1.
  Hypothesis q1 : sumL L q <= 1.

  Lemma gibbs_term a : In a L -> 0 <= (q a - p a) - (p a * ln (q a) - p a * ln (p a)) /\
    ((q a - p a) - (p a * ln (q a) - p a * ln (p a)) = 0 -> q a = p a).
  Proof.
    intros I. destruct (Rle_lt_or_eq_dec _ _ (p0 a I)) as [P|E].
    - assert (Q := pq a I P). assert (Z : 0 < q a / p a) by (apply Rdiv_lt_0_compat; assumption).
      assert (El : p a * ln (q a) - p a * ln (p a) = p a * ln (q a / p a)).
      { unfold Rdiv. rewrite ln_mult, ln_Rinv by auto using Rinv_0_lt_compat. ring. }
      rewrite El. split; [pose proof (ln_ratio_lower _ _ P Q); lra|].
      intros E. assert (q a / p a = 1).
      { apply ln_eq_sub1; [exact Z|]. apply (Rmult_eq_reg_l (p a)); [|lra].
        replace (p a * (q a / p a - 1)) with (q a - p a) by (field; lra). lra. }
      apply (Rmult_eq_reg_r (/ p a)); [|apply Rinv_neq_0_compat; lra]. rewrite Rinv_r by lra. assumption.
    - rewrite <- E. specialize (q0 a I). split; lra.
  Qed.
  Lemma gibbs_sum : sumL L (fun a => (q a - p a) - (p a * ln (q a) - p a * ln (p a))) =
    (sumL L q - 1) - (sumL L (fun a => p a * ln (q a)) - sumL L (fun a => p a * ln (p a))).
  Proof. rewrite !sumL_minus, p1. reflexivity. Qed.
  Lemma gibbs : sumL L (fun a => p a * ln (q a)) <= sumL L (fun a => p a * ln (p a)) /\
    (sumL L (fun a => p a * ln (q a)) = sumL L (fun a => p a * ln (p a)) <-> forall a, In a L -> q a = p a).
  Proof.
    assert (N : forall a, In a L -> 0 <= (q a - p a) - (p a * ln (q a) - p a * ln (p a))) by (intros a I; apply gibbs_term, I).
    assert (S0 := sumL_nonneg _ _ N). rewrite gibbs_sum in S0. split; [lra|]. split.
    - intros E a I. apply gibbs_term; [exact I|]. apply (sumL_eq0 L (fun a => (q a - p a) - (p a * ln (q a) - p a * ln (p a)))); [exact N| |exact I].
      rewrite gibbs_sum. lra.
    - intros E. apply sumL_ext. intros a I. rewrite (E a I). reflexivity.
  Qed.
End Gibbs.

(** Parts of a sum. *)
Lemma sumL_part {Y} (dec : forall a b : Y, {a = b} + {a <> b}) (l L : list Y) F : NoDup l -> NoDup L -> (forall y, In y l -> In y L) ->
  (forall y, In y L -> 0 <= F y) -> sumL l F <= sumL L F.
Proof.
  intros N N' I P. rewrite (sumL_ext l F (fun y => if in_dec dec y l then F y else 0)).
  - rewrite (sumL_sub dec l L) by (auto; intros y _ H; destruct (in_dec dec y l) as [J|J]; first [exact (False_ind _ (H J))|reflexivity]).
    apply sumL_le. intros y J. specialize (P y J). destruct (in_dec dec y l); lra.
  - intros y J. destruct (in_dec dec y l); [reflexivity|contradiction].
Qed.

Lemma words_NoDup {O} (alph : list O) T : NoDup alph -> NoDup (words alph T).
Proof.
  intros N. induction T as [|T IH]; cbn; [repeat constructor; auto|]. revert IH. generalize (words alph T). intros W IH.
  induction N as [|o l NI N IHl]; cbn; [constructor|].
  assert (M : NoDup (map (cons o) W)).
  { clear - IH. induction IH as [|w W NI N IH]; cbn; [constructor|]. constructor; [|exact IH]. intros I. apply in_map_iff in I as (v & [= ->] & I). contradiction. }
  assert (D : forall w, In w (map (cons o) W) -> ~ In w (flat_map (fun o => map (cons o) W) l)).
  { intros w I J. apply in_map_iff in I as (v & <- & _). apply in_flat_map in J as (o' & J & K). apply in_map_iff in K as (v' & [= -> _] & _). contradiction. }
  revert M D. generalize (map (cons o) W). intros U M D. induction M as [|u U NU M IHU]; cbn; [exact IHl|]. constructor.
  - intros I. apply in_app_or in I as [I|I]; [contradiction|]. apply (D u); [left; reflexivity|exact I].
  - apply IHU. intros w I. apply D. right; exact I.
Qed.

Lemma exit_nonneg (m : ctmc R) s : nonneg_mat (ct_mat m) -> 0 <= exit_rate m s.
Proof.
  intros N. unfold exit_rate. destruct (nth_in_or_default s (ct_mat m) []) as [I|E]; [|rewrite E; cbn; lra].
  specialize (N _ I). revert N. generalize (nth s (ct_mat m) []). intros r N. induction r as [|v r IH]; [cbn; lra|].
  rewrite rsum_cons. assert (0 <= v) by (apply N; left; reflexivity). assert (0 <= rsum r) by (apply IH; intros w I'; apply N; right; exact I'). lra.
Qed.
Lemma jump_nonneg (m : ctmc R) s s' : nonneg_mat (ct_mat m) -> 0 <= jump m s s'.
Proof.
  intros N. unfold jump, Rdiv. pose proof (matR_nonneg (ct_mat m) s s' N). destruct (Rle_lt_or_eq_dec _ _ (exit_nonneg m s N)) as [P|E].
  - apply Rmult_le_pos; [assumption|]. left. apply Rinv_0_lt_compat, P.
  - rewrite <- E, Rinv_0. lra.
Qed.

Lemma law_nonneg x tr : proper x -> tr <> [] -> 0 <= law x tr.
Proof.
  intros Pr NE. destruct x as [m|m|m]; cbn [law proper symbols score] in *.
  - destruct Pr as (W & S & I). apply (C28_mc_distribution m (nodup String.string_dec (mc_lab m)) 0); auto using NoDup_nodup.
    intros o J. apply nodup_In, J.
  - destruct Pr as (W & S & S' & I). apply (C28_hmm_distribution m 0); auto.
  - destruct Pr as ((Sq & Ll & Li & Ni) & N & _). unfold ct_trace_prob. apply trace_prob_nonneg.
    + intros. apply is_label_01.
    + apply Forall_forall. intros A I. apply repeat_spec in I. subst. intros i j _ _. apply jump_nonneg, N.
    + intros i _. apply vecR_nonneg; exact Ni.
    + rewrite repeat_length. destruct tr; [congruence|cbn; lia].
Qed.

Lemma emit_unknown (m : hmm R) o s : ~ In o (hmm_alph m) -> emit m o s = 0.
Proof.
  intros I. unfold emit. apply Sum_zero_ext. intros i Hi. destruct (String.eqb_spec (nth i (hmm_alph m) EmptyString) o) as [<-|]; [|reflexivity].
  exfalso. apply I, nth_In. exact Hi.
Qed.

Lemma law_total x alph T : proper x -> NoDup alph -> (forall o, In o (symbols x) -> In o alph) -> sumL (words alph (S T)) (law x) = 1.
Proof.
  intros Pr ND Ha. destruct x as [m|m|m]; cbn [law proper symbols score] in *.
  - destruct Pr as (W & S & I). apply (C28_mc_distribution m alph T); auto.
  - destruct Pr as (W & (Nm & Sm) & (No & So) & Si). pose proof W as ((Ln & Lr) & Lo & Lor & Na & Li & Ni).
    rewrite (sumL_ext _ _ (fun tr => trace_prob (hmm_n m) (vecR (hmm_ini m)) (repeat (matR (hmm_mat m)) T) (map (emit m) tr))).
    2:{ intros tr J. apply words_length in J. unfold hmm_trace_prob. rewrite J. replace (S T - 1)%nat with T by lia. reflexivity. }
    replace (S T) with (S (length (repeat (matR (hmm_mat m)) T))) by (rewrite repeat_length; reflexivity).
    apply words_total.
    + intros s Hs. rewrite <- (sumL_sub String.string_dec (hmm_alph m) alph) by (auto; intros; apply emit_unknown; assumption).
      rewrite emit_total by assumption. apply So, nth_In. lia.
    + apply Forall_forall. intros A J. apply repeat_spec in J. subst. apply row_sums; [split|]; assumption.
    + rewrite <- Si, rsum_nth, Li. reflexivity.
  - destruct Pr as (W & N & E & I). apply (C28_ctmc_distribution m alph T); auto.
Qed.

(** Distinct traces of one length. *)
Lemma law_part x (l : list (list string)) T : proper x -> NoDup l -> (forall tr, In tr l -> length tr = S T) -> sumL l (law x) <= 1.
Proof.
  intros Pr ND Hl. set (alph := nodup String.string_dec (symbols x ++ concat l)).
  rewrite <- (law_total x alph T Pr); [|apply NoDup_nodup|intros o I; apply nodup_In, in_or_app; left; exact I].
  apply (sumL_part (list_eq_dec String.string_dec)); [exact ND|apply words_NoDup, NoDup_nodup| |].
  - intros tr I. rewrite <- (Hl tr I). apply words_In. intros o J. apply nodup_In, in_or_app. right. apply in_concat. eauto.
  - intros tr I. apply law_nonneg; [exact Pr|]. apply words_length in I. destruct tr; [discriminate|congruence].
Qed.

Lemma score_eq x s : proper x -> usable s -> score x s = Ok (avg_ll (law x) (weighted s)).
Proof.
  intros Pr U. destruct x as [m|m|m]; cbn [law proper symbols score] in *; [apply C27_mc_logLikelihood|apply C27_hmm_logLikelihood|apply C27_ctmc_logLikelihood]; tauto.
Qed.
