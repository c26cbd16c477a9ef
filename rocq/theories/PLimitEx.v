(** Instances of the theorems of C148: endless learning from models that the
    first round changes; and the fixed rates that never stop growing. *)
From Coq Require Import String ZArith Bool Reals List Lia Lra.
From Verif Require Import Num Py SNum SPath LSum MSet SSet LSet MModels MLik MBW LFB LEM SBW LBW LBWSet LBWMC SLik LPath LLik LLik2 LBWLoop LBWPath SExp LEMGen LBWHMM LBWMDP LBWCT PLik LFit PBWMC PBWHMM PBWMDP PBWCT PBWCTU SGain LGain PGain PGain2 PGainEx SGrad LGrad2 PGrad PGrad2 PGradEx SLimit LLimit PLimit PLimit2 PLimit3.
Import ListNotations.
Local Open Scope R_scope.

(** A round that gives a model did not refuse a trace. *)
Lemma second {M} (round : M -> res (M * R)) it m m' ll : endless round it -> it 0%nat = m -> round m = Ok (m', ll) -> m' <> m -> it 1%nat <> it 0%nat.
Proof. intros E Z Er D. destruct (E 0%nat) as [l0 E0]. rewrite Z in *. rewrite Er in E0. inversion E0; subst. exact D. Qed.

Example C148_mc_instance : exists it, it 0%nat = gx_mc /\ it 1%nat <> it 0%nat /\ endless (round_MC 1 gx_set) it /\
  exists f m, grows f /\ mc_tends (fun k => it (f k)) m /\ exists ll, round_MC 1 gx_set m = Ok (m, ll).
Proof.
  destruct gx_mc_ok as (W & S & Si & HT). destruct C145_mc_instance as (m' & ll & E & D & _).
  assert (Pp : forall tr t, In (tr, t) gx_set -> 0 < mc_trace_prob_move gx_mc tr).
  { intros tr t [I|[]]; inversion I; subst. unfold mc_trace_prob_move, trace_prob, sumL, is_label, matR, vecR; cbn. lra. }
  destruct (C148_mc_endless gx_mc 1 gx_set W S HT) as (it & Z & En); [|right; exact Pp|].
  { exists ["x"; "y"]%string, 1%Z. split; [left; reflexivity|]. apply (Pp _ 1%Z). left; reflexivity. }
  exists it. split; [exact Z|]. split; [apply (second _ it _ m' ll En Z E D)|]. split; [exact En|].
  destruct (C148_mc_converges it 1 gx_set) as (f & m & G & T & _ & _ & F & _); auto; try (rewrite Z; assumption).
  exists f, m. auto.
Qed.

Example C148_hmm_instance : exists it, it 0%nat = gx_hmm /\ it 1%nat <> it 0%nat /\ endless (round_HMM 1 gx_set) it /\
  exists f m, grows f /\ hmm_tends (fun k => it (f k)) m /\ exists ll, round_HMM 1 gx_set m = Ok (m, ll).
Proof.
  destruct C145_hmm_instance as (W & S & m' & ll & E & D & _). assert (HT : pos_times gx_set) by apply gx_mc_ok.
  assert (Pp : forall tr t, In (tr, t) gx_set -> 0 < hmm_trace_prob_move gx_hmm tr).
  { intros tr t [I|[]]; inversion I; subst. unfold hmm_trace_prob_move, trace_prob, sumL, emit, Sum, sumL, matR, vecR; cbn. lra. }
  destruct (C148_hmm_endless gx_hmm 1 gx_set W S HT) as (it & Z & En); [|right; exact Pp|].
  { exists ["x"; "y"]%string, 1%Z. split; [left; reflexivity|]. apply (Pp _ 1%Z). left; reflexivity. }
  exists it. split; [exact Z|]. split; [apply (second _ it _ m' ll En Z E D)|]. split; [exact En|].
  destruct (C148_hmm_converges it 1 gx_set) as (f & m & G & T & _ & _ & F & _); auto; try (rewrite Z; assumption).
  exists f, m. auto.
Qed.

Example C148_mdp_instance : exists it, it 0%nat = gx_mdp /\ it 1%nat <> it 0%nat /\ endless (round_MDP 1 gx_dset) it /\
  exists f m, grows f /\ mdp_tends (fun k => it (f k)) m /\ exists ll, round_MDP 1 gx_dset m = Ok (m, ll).
Proof.
  destruct C145_mdp_instance as (W & N & S & Si & HT & A & m' & ll & E & D & _).
  assert (Pp : forall tr t, In (tr, t) gx_dset -> 0 < mdp_trace_prob gx_mdp tr).
  { intros tr t [I|[]]; inversion I; subst. unfold mdp_trace_prob, trace_prob, is_label, act_mat, Sum, sumL, matR, vecR; cbn. lra. }
  destruct (C148_mdp_endless gx_mdp 1 gx_dset W N S HT A) as (it & Z & En); [|right; exact Pp|].
  { exists ["x"; "a"; "y"]%string, 1%Z. split; [left; reflexivity|]. apply (Pp _ 1%Z). left; reflexivity. }
  exists it. split; [exact Z|]. split; [apply (second _ it _ m' ll En Z E D)|]. split; [exact En|].
  destruct (C148_mdp_converges it 1 gx_dset) as (f & m & G & T & _ & _ & _ & F & _); auto; try (rewrite Z; assumption).
  exists f, m. auto.
Qed.

Definition gx_free : list (list bool) := [[false; false]; [false; false]].
Example C148_ctmc_timed_instance : exists it, it 0%nat = gx_ct /\ it 1%nat <> it 0%nat /\ endless (round_CTMC_timed 1 gx_free gx_tset) it /\
  exists f m, grows f /\ ct_tends (fun k => it (f k)) m /\ exists ll, round_CTMC_timed 1 gx_free gx_tset m = Ok (m, ll).
Proof.
  destruct C145_ctmc_timed_instance as (W & N & A & HT & m' & ll & E & D & _). destruct C146_ctmc_timed_instance as [Dw _].
  destruct C145_ctmc_untimed_instance as (_ & _ & _ & NF). fold gx_free in NF.
  assert (Pd : forall x : R, ct_density gx_ct (["x"; "y"]%string, [x]) = exp (- ((0 + (1 + 0)) * x))).
  { intros x. unfold ct_density, trace_prob, sumL, jump_density, is_label, exit_rate, rsum; cbn. ring. }
  assert (Pp : forall tr t, In (tr, t) gx_tset -> 0 < ct_density gx_ct tr).
  { intros tr t [I|[]]; inversion I; subst. rewrite Pd. apply exp_pos. }
  destruct (C148_ctmc_timed_endless gx_ct 1 gx_free gx_tset W N A HT) as (it & Z & En); [|right; exact Pp|].
  { exists (["x"; "y"]%string, [1/2]), 1%Z. split; [left; reflexivity|]. apply (Pp _ 1%Z). left; reflexivity. }
  exists it. split; [exact Z|]. split.
  - destruct (En 0%nat) as [l0 E0]. intros Q. rewrite Q, Z in E0. rewrite Z in *.
    destruct (C73_ctmc_timed_round_is_ratio_of_expectations gx_ct gx_ct gx_free 1 gx_tset l0 W N A E0) as (_ & _ & _ & _ & _ & _ & K & _).
    specialize (K 0%nat 1%nat ltac:(cbn; lia) ltac:(cbn; lia) eq_refl). set (w := exp (- ((0 + (1 + 0)) * (1/2)))). assert (Hw : 0 < w) by apply exp_pos.
    assert (V : set_expected (ct_density gx_ct) (ct_expected_dwell gx_ct 0) gx_tset = 1/2).
    { apply (one_expected _ _ _ w); [apply Pd|lra|]. unfold ct_expected_dwell, ct_expected, expected, jump_density, exit_rate, sumL, is_label, on_leave, rsum; cbn. fold w. field. }
    assert (Mv : set_expected (ct_density gx_ct) (ct_expected_moves gx_ct 0 1) gx_tset = 1).
    { apply (one_expected _ _ _ w); [apply Pd|lra|]. unfold ct_expected_moves, ct_expected, expected, jump_density, exit_rate, sumL, is_label, on_move, rsum; cbn. fold w. field. }
    rewrite V, Mv in K. destruct (Req_EM_T (1/2) 0); [lra|]. unfold rate, matR in K; cbn in K. lra.
  - split; [exact En|]. destruct (C148_ctmc_timed_converges it 1 gx_free gx_tset) as (f & m & G & T & _ & _ & F & _); auto; try (rewrite Z; assumption).
    exists f, m. auto.
Qed.

(** A fixed rate of a state that no trace visits doubles at every round: such a
    run comes close to no model at all (see C45). *)
Lemma fix_unused m : ct_n m = 2%nat -> ct_lab m = ["x"; "y"]%string -> wf_ctmc m -> set_expected (ct_density m) (ct_expected_dwell m 1) ex_fset = 0.
Proof.
  intros En El W.
  assert (X : ct_expected_dwell m 1 (["x"; "x"]%string, [1]) = 0).
  { unfold ct_expected_dwell, ct_expected, expected. rewrite En, El. unfold sumL, is_label, on_leave. cbn. ring. }
  unfold set_expected, ex_fset, sumL. cbn [map rsum fold_right fst snd]. rewrite X. destruct (Rlt_dec _ _); unfold Rdiv; ring.
Qed.
Theorem C148_ctmc_timed_converges_refuted : exists (it : nat -> ctmc R) (fixed : list (list bool)) set,
  wf_ctmc (it 0%nat) /\ nonneg_mat (ct_mat (it 0%nat)) /\ pos_dwell set /\ pos_times set /\ endless (round_CTMC_timed 1 fixed set) it /\
  is_fixed fixed 1 0 = true /\ (forall k, rate (it k) 1 0 = 2 ^ k) /\
  ~ exists f m, grows f /\ ct_tends (fun k => it (f k)) m.
Proof.
  destruct ex_fix_ok as (W & N & A & HT & P).
  assert (Dw : pos_dwell ex_fset) by (intros tr t [I|[]]; inversion I; subst; split; [reflexivity|intros d [<-|[]]; lra]).
  destruct (C148_ctmc_timed_endless ex_fix 1 ex_mask ex_fset W N A HT) as (it & Z & En); [|right; exact P|].
  { exists (["x"; "x"]%string, [1]), 1%Z. split; [left; reflexivity|]. apply (P _ 1%Z). left; reflexivity. }
  exists it, ex_mask, ex_fset. rewrite Z. repeat (split; [assumption|]). split; [reflexivity|].
  assert (S0 : ct_ok (it 0%nat)) by (rewrite Z; split; assumption).
  destruct (ct_run it 1 ex_mask ex_fset S0 A HT En) as (F & _ & _). rewrite Z in F.
  assert (R2 : forall k, rate (it k) 1 0 = 2 ^ k).
  { induction k as [|k IH]; [rewrite Z; reflexivity|]. destruct (En k) as [ll E]. destruct (F k) as [[Wk Nk] (Fn & Fl & _)].
    destruct (C73_ctmc_timed_round_is_ratio_of_expectations (it k) (it (S k)) ex_mask 1 ex_fset ll Wk Nk A E) as (_ & _ & _ & _ & _ & _ & _ & K).
    rewrite K; [|rewrite Fn; cbn; lia|rewrite Fn; cbn; lia|reflexivity]. rewrite (fix_unused (it k)); auto. destruct (Req_EM_T 0 0); [|lra]. rewrite IH. cbn. ring. }
  split; [exact R2|]. intros (f & m & G & [Fm (T1 & T2 & T3)]).
  assert (En2 : ct_n m = 2%nat). { destruct (Fm 0%nat) as (Fn & _). rewrite <- Fn. destruct (F (f 0%nat)) as [_ (Fn' & _)]. rewrite Fn'. reflexivity. }
  pose proof (T3 1%nat 0%nat ltac:(rewrite En2; lia) ltac:(rewrite En2; lia)) as C.
  destruct (CV_Cauchy _ (exist _ _ C) 1 ltac:(lra)) as [k0 Hk0]. specialize (Hk0 k0 (S k0) ltac:(lia) ltac:(lia)).
  unfold R_dist in Hk0. change (Rabs (rate (it (f k0)) 1 0 - rate (it (f (S k0))) 1 0) < 1) in Hk0. rewrite !R2 in Hk0.
  pose proof (G k0) as Gk.
  assert (Pw : 2 ^ S (f k0) <= 2 ^ f (S k0)) by (apply Rle_pow; [lra|lia]). cbn [pow] in Pw.
  assert (Po : 1 <= 2 ^ f k0) by (apply pow_R1_Rle; lra). rewrite Rabs_left1 in Hk0 by lra. lra.
Qed.
Print Assumptions C148_ctmc_timed_converges_refuted.
