(** Instances of the theorems of C145: models that a round does improve. *)
From Coq Require Import String ZArith Bool Reals List Lia Lra Permutation.
From Verif Require Import Num Py SNum SPath LSum MSet SSet LSet MModels MLik MBW LFB LEM SBW LBW LBWSet LBWMC SLik LPath LLik LLik2 LBWLoop LBWPath SExp LEMGen LBWHMM LBWMDP LBWCT LBWGO PLik LFit PBWMC PBWHMM PBWMDP PBWCT PBWCTU PBWGO SGain LGain PGain PGain2.
Import ListNotations.
Local Open Scope R_scope.

Lemma one_expected {T} (P X : T -> R) x (w v : R) : P x = w -> 0 < w -> X x = w * v -> set_expected P X [(x, 1%Z)] = v.
Proof.
  intros E Hw EX. unfold set_expected, sumL. cbn [map rsum fold_right fst snd]. rewrite EX, E. destruct (Rlt_dec 0 w); [|contradiction]. cbn. field. lra.
Qed.

Definition gx_mc : mc R := mkMC [[1/2; 1/2]; [1/3; 2/3]] ["x"; "y"]%string [1; 0] "g"%string.
Definition gx_set : list (list string * Z) := [(["x"; "y"]%string, 1%Z)].
Lemma gx_mc_ok : wf_mc gx_mc /\ substochastic (mc_mat gx_mc) /\ rsum (mc_ini gx_mc) <= 1 /\ pos_times gx_set.
Proof.
  split; [|split; [|split]].
  - unfold wf_mc, square, mc_n; cbn. repeat split; auto; [intros r [<-|[<-|[]]]; reflexivity|intros v [<-|[<-|[]]]; lra].
  - split; intros r [<-|[<-|[]]]; [| |cbn; lra|cbn; lra]; intros v [<-|[<-|[]]]; lra.
  - cbn; lra.
  - intros st [<-|[]]; cbn; lia.
Qed.
Example C145_mc_instance : exists m' ll, round_MC 1 gx_set gx_mc = Ok (m', ll) /\ m' <> gx_mc /\
  set_ll (mc_trace_prob_move gx_mc) gx_set < set_ll (mc_trace_prob_move m') gx_set /\ rounds (round_MC 1 gx_set) (mc_moved gx_set) 1 gx_mc m' (mc_moved gx_set gx_mc m' + 0).
Proof.
  destruct gx_mc_ok as (W & S & Si & HT).
  assert (P : mc_trace_prob_move gx_mc ["x"; "y"]%string = 1/2).
  { unfold mc_trace_prob_move, trace_prob, sumL, is_label, matR, vecR; cbn. lra. }
  assert (V : set_expected (mc_trace_prob_move gx_mc) (mc_expected_visits gx_mc 0) gx_set = 1).
  { apply (one_expected _ _ _ (1/2)); [exact P|lra|]. unfold mc_expected_visits, expected, sumL, is_label, matR, vecR, on_leave; cbn. lra. }
  assert (Mv : set_expected (mc_trace_prob_move gx_mc) (mc_expected_moves gx_mc 0 1) gx_set = 1).
  { apply (one_expected _ _ _ (1/2)); [exact P|lra|]. unfold mc_expected_moves, expected, sumL, is_label, matR, vecR, on_move; cbn. lra. }
  assert (Pp : forall tr t, In (tr, t) gx_set -> 0 < mc_trace_prob_move gx_mc tr).
  { intros tr t [I|[]]; inversion I; subst; rewrite P; lra. }
  destruct (round_mc_succeeds gx_mc gx_set 1) as (m' & ll & E); [split; [exact W|apply S]| |right; exact Pp|].
  { exists ["x"; "y"]%string, 1%Z. split; [left; reflexivity|]. apply (Pp _ 1%Z). left; reflexivity. }
  assert (D : m' <> gx_mc).
  { destruct (C73_mc_round_is_ratio_of_expectations gx_mc m' 1 gx_set ll W (proj1 S) E) as (_ & _ & _ & _ & _ & K).
    specialize (K 0%nat 1%nat). cbn zeta in K. rewrite V, Mv in K by (cbn; lia). intros ->. specialize (K ltac:(cbn; lia) ltac:(cbn; lia)). destruct (Req_EM_T 1 0); [lra|]. unfold matR in K; cbn in K. lra. }
  exists m', ll. split; [exact E|]. split; [exact D|]. split.
  - destruct (C145_mc_strict gx_mc m' 1 gx_set ll W S HT E); [contradiction|assumption].
  - eapply rounds_S; [exact E|constructor].
Qed.

Definition gx_hmm : hmm R := mkHMM [[1/2; 1/2]; [1/3; 2/3]] [[1; 0]; [1/4; 3/4]] ["x"; "y"]%string [1; 0] "g"%string.
Example C145_hmm_instance : wf_hmm gx_hmm /\ hmm_sub gx_hmm /\ exists m' ll, round_HMM 1 gx_set gx_hmm = Ok (m', ll) /\ m' <> gx_hmm /\
  set_ll (hmm_trace_prob_move gx_hmm) gx_set < set_ll (hmm_trace_prob_move m') gx_set.
Proof.
  assert (W : wf_hmm gx_hmm).
  { unfold wf_hmm, square, hmm_n; cbn. repeat split; auto; try (intros r [<-|[<-|[]]]; reflexivity); [|intros v [<-|[<-|[]]]; lra].
    constructor; [intros [X|[]]; discriminate|]. constructor; [intros []|constructor]. }
  assert (S : hmm_sub gx_hmm).
  { split; [|split]; [| |cbn; lra]; (split; intros r [<-|[<-|[]]]; [| |cbn; lra|cbn; lra]; intros v [<-|[<-|[]]]; lra). }
  split; [exact W|]. split; [exact S|]. assert (HT : pos_times gx_set) by apply gx_mc_ok.
  assert (N : nonneg_hmm gx_hmm) by (split; apply S).
  assert (P : hmm_trace_prob_move gx_hmm ["x"; "y"]%string = 3/8).
  { unfold hmm_trace_prob_move, trace_prob, sumL, emit, Sum, sumL, matR, vecR; cbn. lra. }
  assert (V : set_expected (hmm_trace_prob_move gx_hmm) (hmm_expected_visits gx_hmm 0) gx_set = 1).
  { apply (one_expected _ _ _ (3/8)); [exact P|lra|]. unfold hmm_expected_visits, hmm_expected, expected, emit, Sum, sumL, matR, vecR, on_leave; cbn. lra. }
  assert (Mv : set_expected (hmm_trace_prob_move gx_hmm) (hmm_expected_moves gx_hmm 0 1) gx_set = 1).
  { apply (one_expected _ _ _ (3/8)); [exact P|lra|]. unfold hmm_expected_moves, hmm_expected, expected, emit, Sum, sumL, matR, vecR, on_move; cbn. lra. }
  assert (Pp : forall tr t, In (tr, t) gx_set -> 0 < hmm_trace_prob_move gx_hmm tr).
  { intros tr t [I|[]]; inversion I; subst; rewrite P; lra. }
  destruct (round_hmm_succeeds gx_hmm gx_set 1) as (m' & ll & E); [split; assumption| |right; exact Pp|].
  { exists ["x"; "y"]%string, 1%Z. split; [left; reflexivity|]. apply (Pp _ 1%Z). left; reflexivity. }
  assert (D : m' <> gx_hmm).
  { destruct (C73_hmm_round_is_ratio_of_expectations gx_hmm m' 1 gx_set ll W N E) as (_ & _ & _ & _ & K & _).
    specialize (K 0%nat 1%nat ltac:(cbn; lia) ltac:(cbn; lia)). rewrite V, Mv in K. intros ->. destruct (Req_EM_T 1 0); [lra|]. unfold matR in K; cbn in K. lra. }
  exists m', ll. split; [exact E|]. split; [exact D|].
  destruct (C145_hmm_strict gx_hmm m' 1 gx_set ll W S HT E); [contradiction|assumption].
Qed.

Definition gx_mdp : mdp R := mkMDP [[[1/2; 1/2]]; [[1; 0]]] ["x"; "y"]%string ["a"]%string [1; 0] "g"%string.
Definition gx_dset : list (list string * Z) := [(["x"; "a"; "y"]%string, 1%Z)].
Example C145_mdp_instance : wf_mdp gx_mdp /\ nonneg_mdp gx_mdp /\ mdp_rows (fun x => x <= 1) gx_mdp /\ rsum (mdp_ini gx_mdp) <= 1 /\ pos_times gx_dset /\ alternating_set gx_dset /\
  exists m' ll, round_MDP 1 gx_dset gx_mdp = Ok (m', ll) /\ m' <> gx_mdp /\ set_ll (mdp_trace_prob gx_mdp) gx_dset < set_ll (mdp_trace_prob m') gx_dset.
Proof.
  assert (W : wf_mdp gx_mdp).
  { unfold wf_mdp, mdp_n; cbn. split; [|split; [reflexivity|split; [constructor; [intros []|constructor]|split; [reflexivity|intros v [<-|[<-|[]]]; lra]]]].
    intros ra [<-|[<-|[]]]; (split; [reflexivity|intros r [<-|[]]; reflexivity]). }
  assert (N : nonneg_mdp gx_mdp) by (intros ra [<-|[<-|[]]] r [<-|[]] v [<-|[<-|[]]]; lra).
  assert (S : mdp_rows (fun x => x <= 1) gx_mdp).
  { intros s j Hs Hj. unfold mdp_n in Hs; cbn in Hs, Hj. assert (j = 0)%nat as -> by lia. destruct s as [|[|s]]; [| |lia]; unfold row_total; cbn; lra. }
  assert (HT : pos_times gx_dset) by (intros st [<-|[]]; cbn; lia).
  assert (A : alternating_set gx_dset) by (intros tr t [I|[]]; inversion I; subst; reflexivity).
  repeat (split; [assumption|]). split; [cbn; lra|]. split; [exact HT|]. split; [exact A|].
  assert (P : mdp_trace_prob gx_mdp ["x"; "a"; "y"]%string = 1/2).
  { unfold mdp_trace_prob, trace_prob, is_label, act_mat, Sum, sumL, matR, vecR; cbn. lra. }
  assert (V : set_expected (mdp_trace_prob gx_mdp) (mdp_expected_visits gx_mdp 0 "a") gx_dset = 1).
  { apply (one_expected _ _ _ (1/2)); [exact P|lra|]. unfold mdp_expected_visits, mdp_expected, expected, is_label, act_mat, Sum, sumL, matR, vecR, on_leave, ind; cbn. lra. }
  assert (Mv : set_expected (mdp_trace_prob gx_mdp) (mdp_expected_moves gx_mdp 0 "a" 1) gx_dset = 1).
  { apply (one_expected _ _ _ (1/2)); [exact P|lra|]. unfold mdp_expected_moves, mdp_expected, expected, is_label, act_mat, Sum, sumL, matR, vecR, on_move, ind; cbn. lra. }
  assert (Pp : forall tr t, In (tr, t) gx_dset -> 0 < mdp_trace_prob gx_mdp tr).
  { intros tr t [I|[]]; inversion I; subst; rewrite P; lra. }
  destruct (round_mdp_succeeds gx_mdp gx_dset 1) as (m' & ll & E); [split; assumption|exact A| |right; exact Pp|].
  { exists ["x"; "a"; "y"]%string, 1%Z. split; [left; reflexivity|]. apply (Pp _ 1%Z). left; reflexivity. }
  assert (D : m' <> gx_mdp).
  { destruct (C73_mdp_round_is_ratio_of_expectations gx_mdp m' 1 gx_dset ll W N A E) as (_ & _ & _ & _ & _ & _ & K).
    specialize (K 0%nat 0%nat 1%nat ltac:(cbn; lia) ltac:(cbn; lia) ltac:(cbn; lia)). cbn zeta in K. cbn [gx_mdp mdp_act nth] in K. fold gx_mdp in K. rewrite V, Mv in K. intros ->. destruct (Req_EM_T 1 0); [lra|]. unfold prob_of in K; cbn in K. lra. }
  exists m', ll. split; [exact E|]. split; [exact D|].
  destruct (C145_mdp_strict gx_mdp m' 1 gx_dset ll W N S HT A E); [contradiction|assumption].
Qed.

Definition gx_ct : ctmc R := mkCTMC [[0; 1]; [1; 0]] ["x"; "y"]%string [1; 0] "g"%string.
Definition gx_tset : list ((list string * list R) * Z) := [((["x"; "y"]%string, [1/2]), 1%Z)].
Example C145_ctmc_timed_instance : wf_ctmc gx_ct /\ nonneg_mat (ct_mat gx_ct) /\ timed_set gx_tset /\ pos_times gx_tset /\
  exists m' ll, round_CTMC_timed 1 [[true; false]; [false; false]] gx_tset gx_ct = Ok (m', ll) /\ m' <> gx_ct /\ set_ll (ct_density gx_ct) gx_tset < set_ll (ct_density m') gx_tset.
Proof.
  assert (W : wf_ctmc gx_ct).
  { unfold wf_ctmc, square, ct_n; cbn. repeat split; auto; [intros r [<-|[<-|[]]]; reflexivity|intros v [<-|[<-|[]]]; lra]. }
  assert (N : nonneg_mat (ct_mat gx_ct)) by (intros r [<-|[<-|[]]] v [<-|[<-|[]]]; lra).
  assert (A : timed_set gx_tset) by (intros tr t [E|[]]; inversion E; subst; split; [reflexivity|intros d [<-|[]]; lra]).
  assert (HT : pos_times gx_tset) by (intros st [<-|[]]; cbn; lia).
  repeat (split; [assumption|]).
  set (w := exp (- ((0 + (1 + 0)) * (1/2)))). assert (Hw : 0 < w) by apply exp_pos.
  assert (P : ct_density gx_ct (["x"; "y"]%string, [1/2]) = w).
  { unfold ct_density, trace_prob, sumL, jump_density, is_label, exit_rate, rsum; cbn. fold w. ring. }
  assert (V : set_expected (ct_density gx_ct) (ct_expected_dwell gx_ct 0) gx_tset = 1/2).
  { apply (one_expected _ _ _ w); [exact P|lra|]. unfold ct_expected_dwell, ct_expected, expected, jump_density, exit_rate, sumL, is_label, on_leave, rsum; cbn. fold w. field. }
  assert (Mv : set_expected (ct_density gx_ct) (ct_expected_moves gx_ct 0 1) gx_tset = 1).
  { apply (one_expected _ _ _ w); [exact P|lra|]. unfold ct_expected_moves, ct_expected, expected, jump_density, exit_rate, sumL, is_label, on_move, rsum; cbn. fold w. field. }
  assert (Pp : forall tr t, In (tr, t) gx_tset -> 0 < ct_density gx_ct tr).
  { intros tr t [I|[]]; inversion I; subst; rewrite P; lra. }
  destruct (round_ct_succeeds gx_ct [[true; false]; [false; false]] gx_tset 1) as (m' & ll & E); [split; assumption|exact A| |right; exact Pp|].
  { exists (["x"; "y"]%string, [1/2]), 1%Z. split; [left; reflexivity|]. apply (Pp _ 1%Z). left; reflexivity. }
  assert (D : m' <> gx_ct).
  { destruct (C73_ctmc_timed_round_is_ratio_of_expectations gx_ct m' _ 1 gx_tset ll W N A E) as (_ & _ & _ & _ & _ & _ & K & _).
    specialize (K 0%nat 1%nat ltac:(cbn; lia) ltac:(cbn; lia) eq_refl). rewrite V, Mv in K. intros ->. destruct (Req_EM_T (1/2) 0); [lra|]. unfold rate, matR in K; cbn in K. lra. }
  exists m', ll. split; [exact E|]. split; [exact D|].
  destruct (C145_ctmc_timed_strict gx_ct m' _ 1 gx_tset ll W N A HT E); [|contradiction|assumption].
  intros [|[|s]] [|[|s']] Hs Hs' F Nz; try discriminate F; try (unfold ct_n in Hs, Hs'; cbn in Hs, Hs'; lia). exfalso. apply Nz. reflexivity.
Qed.

Example C145_ctmc_untimed_instance : wf_ctmc gx_ct /\ nonneg_mat (ct_mat gx_ct) /\ live gx_ct /\ no_fixed [[false; false]; [false; false]].
Proof.
  split; [apply C145_ctmc_timed_instance|]. split; [apply C145_ctmc_timed_instance|]. split.
  - intros [|[|s]] Hs; [| |unfold ct_n in Hs; cbn in Hs; lia]; unfold exit_rate; cbn; lra.
  - intros [|[|s]] [|[|s']]; cbn; try reflexivity; try (destruct s'; reflexivity); try (destruct s; reflexivity); destruct s, s'; reflexivity.
Qed.

Example C145_gohmm_instance : exists m' ll, round_GoHMM 1 1 (weighted ex_gset) ex_go = Ok (m', ll) /\ pos_sigma 1 m' /\
  (forall s, (s < go_n ex_go)%nat -> set_expected (go_trace_density_move ex_go) (go_expected_visits ex_go s) (weighted ex_gset) <> 0) /\
  set_ll (go_trace_density_move ex_go) (weighted ex_gset) + go_moved 1 (weighted ex_gset) ex_go m' <= set_ll (go_trace_density_move m') (weighted ex_gset).
Proof.
  destruct C71_C75_instance as (W & S & Si & F & U & Ho & V & _). pose proof (weighted_pos ex_gset U) as HT.
  assert (Hd : obs_dim 1 (weighted ex_gset)) by (intros tr t I o Io; apply in_combine_l in I; eauto).
  destruct (full_round_succeeds 1 ex_go (weighted ex_gset) 1) as [m' [ll E]]; auto; [discriminate|].
  pose proof (round_full 1 ex_go (weighted ex_gset) 1 m' ll W F Hd HT V E) as (_ & Sg' & _).
  exists m', ll. split; [exact E|]. split; [exact Sg'|]. split.
  - intros s Hs. rewrite <- gDEN_path by exact Hs. pose proof (full_DEN 1 ex_go (weighted ex_gset) F Hd HT s (proj1 V) Hs). lra.
  - apply (C145_gohmm_gain 1 ex_go m' 1 (weighted ex_gset) ll); auto; [apply F|]. split; [split; [apply S|intros r I; rewrite (proj2 S r I); lra]|lra].
Qed.
