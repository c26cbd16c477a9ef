(** Instances of the theorems of C146. *)
From Coq Require Import String ZArith Bool Reals List Lia Lra Permutation.
From Verif Require Import Num Py SNum SPath LSum MSet SSet LSet MModels MLik MBW LFB LEM SBW LBW LBWSet LBWMC SLik LPath LLik LLik2 LBWLoop LBWPath SExp LEMGen LBWHMM LBWMDP LBWCT LBWGO PLik LFit PBWMC PBWHMM PBWMDP PBWCT PBWCTU PBWGO SGain LGain PGain PGain2 PGainEx SGrad LGrad LGrad2 PGrad PGrad2 PGrad3.
Import ListNotations.
Local Open Scope R_scope.

(** A chain that a round leaves as it is, and one that it improves. *)
Definition gf_mc : mc R := mkMC [[0; 1]; [1/3; 2/3]] ["x"; "y"]%string [1; 0] "g"%string.
Example C146_mc_instance_fixed : wf_mc gf_mc /\ stochastic01 (mc_mat gf_mc) /\ pos_times gx_set /\
  exists ll, round_MC 1 gx_set gf_mc = Ok (gf_mc, ll) /\ mc_slope gx_set gf_mc [[0; 1]; [1/2; 1/2]] 0.
Proof.
  assert (W : wf_mc gf_mc).
  { unfold wf_mc, square, mc_n; cbn. repeat split; auto; [intros r [<-|[<-|[]]]; reflexivity|intros v [<-|[<-|[]]]; lra]. }
  assert (S : stochastic01 (mc_mat gf_mc)).
  { split; intros r [<-|[<-|[]]]; [| |right; cbn; lra|right; cbn; lra]; intros v [<-|[<-|[]]]; lra. }
  assert (HT : pos_times gx_set) by apply gx_mc_ok.
  repeat (split; [assumption|]).
  assert (P : mc_trace_prob_move gf_mc ["x"; "y"]%string = 1).
  { unfold mc_trace_prob_move, trace_prob, sumL, is_label, matR, vecR; cbn. lra. }
  assert (V : forall s, s = 0%nat \/ s = 1%nat -> set_expected (mc_trace_prob_move gf_mc) (mc_expected_visits gf_mc s) gx_set = 1).
  { intros s [-> | ->]; (apply (one_expected _ _ _ 1); [exact P|lra|]); unfold mc_expected_visits, expected, sumL, is_label, matR, vecR, on_leave; cbn; lra. }
  assert (Mv : forall s s', s = 0%nat \/ s = 1%nat -> s' = 0%nat \/ s' = 1%nat -> set_expected (mc_trace_prob_move gf_mc) (mc_expected_moves gf_mc s s') gx_set = matR (mc_mat gf_mc) s s').
  { intros s s' [-> | ->] [-> | ->]; (apply (one_expected _ _ _ 1); [exact P|lra|]); unfold mc_expected_moves, expected, sumL, is_label, matR, vecR, on_move; cbn; lra. }
  assert (Pp : forall tr t, In (tr, t) gx_set -> 0 < mc_trace_prob_move gf_mc tr).
  { intros tr t [I|[]]; inversion I; subst; rewrite P; lra. }
  destruct (round_mc_succeeds gf_mc gx_set 1) as (m' & ll & E); [split; [exact W|apply S]| |right; exact Pp|].
  { exists ["x"; "y"]%string, 1%Z. split; [left; reflexivity|]. apply (Pp _ 1%Z). left; reflexivity. }
  assert (D : m' = gf_mc).
  { destruct (C73_mc_round_is_ratio_of_expectations gf_mc m' 1 gx_set ll W (proj1 S) E) as (B1 & B2 & B3 & Sq & _ & K).
    assert (Ma : mc_mat m' = mc_mat gf_mc).
    { apply (mat_ext (mc_n gf_mc)); [exact Sq|apply W|]. intros s s' Hs Hs'. specialize (K s s' Hs Hs'). cbn zeta in K. unfold mc_n in Hs, Hs'; cbn in Hs, Hs'.
      rewrite V, Mv in K by lia. rewrite K. destruct (Req_EM_T 1 0); [lra|field]. }
    destruct m'. cbn in B1, B2, B3, Ma. unfold gf_mc in *. cbn in *. subst. reflexivity. }
  subst m'. exists ll. split; [exact E|]. apply (C146_mc_stationary gf_mc 1 gx_set ll W (proj1 S) HT E).
  apply Forall2_cons; [|apply Forall2_cons; [|apply Forall2_nil]]; (split; [split; [reflexivity|split; [intros v [<-|[<-|[]]]; lra|intros [|[|[|j]]] Z; cbn in *; lra]]|cbn; lra]).
Qed.
Example C146_mc_instance : exists m' ll g, round_MC 1 gx_set gx_mc = Ok (m', ll) /\ mc_slope gx_set gx_mc (mc_mat m') g /\ 0 < g.
Proof.
  destruct C145_mc_instance as (m' & ll & E & D & _). destruct gx_mc_ok as (W & S & Si & HT).
  destruct (C146_mc_ascent gx_mc m' 1 gx_set ll W) as (_ & g & Dg & _ & P); auto; [|exists m', ll, g; auto].
  split; [apply S|]. intros r [<-|[<-|[]]]; right; cbn; lra.
Qed.
Example C146_hmm_instance : hmm_proper gx_hmm /\ exists m' ll g, round_HMM 1 gx_set gx_hmm = Ok (m', ll) /\ hmm_slope gx_set gx_hmm (hmm_mat m') (hmm_out m') (hmm_ini m') g /\ 0 < g.
Proof.
  destruct C145_hmm_instance as (W & S & m' & ll & E & D & _). destruct gx_mc_ok as (_ & _ & _ & HT).
  assert (Pr : hmm_proper gx_hmm).
  { split; [|split; [|cbn; lra]]; (split; [apply S|]); intros r [<-|[<-|[]]]; right; cbn; lra. }
  split; [exact Pr|]. destruct (C146_hmm_ascent gx_hmm m' 1 gx_set ll W Pr HT E) as (_ & _ & _ & g & Dg & _ & P). exists m', ll, g. auto.
Qed.
Example C146_mdp_instance : mdp_rows (fun x => x = 0 \/ x = 1) gx_mdp /\ exists m' ll g, round_MDP 1 gx_dset gx_mdp = Ok (m', ll) /\ mdp_slope gx_dset gx_mdp (mdp_mat m') g /\ 0 < g.
Proof.
  destruct C145_mdp_instance as (W & N & _ & _ & HT & A & m' & ll & E & D & _).
  assert (S : mdp_rows (fun x => x = 0 \/ x = 1) gx_mdp).
  { intros s j Hs Hj. unfold mdp_n in Hs; cbn in Hs, Hj. assert (j = 0)%nat as -> by lia. right. destruct s as [|[|s]]; [| |lia]; unfold row_total; cbn; lra. }
  split; [exact S|]. destruct (C146_mdp_ascent gx_mdp m' 1 gx_dset ll W N S HT A E) as (_ & g & Dg & _ & P). exists m', ll, g. auto.
Qed.
Example C146_ctmc_timed_instance : pos_dwell gx_tset /\ exists m' ll g, round_CTMC_timed 1 [[true; false]; [false; false]] gx_tset gx_ct = Ok (m', ll) /\
  ct_slope gx_tset gx_ct (ct_mat m') g /\ 0 < g.
Proof.
  destruct C145_ctmc_timed_instance as (W & N & A & HT & m' & ll & E & D & _).
  split; [intros tr t [I|[]]; inversion I; subst; split; [reflexivity|intros d [<-|[]]; lra]|].
  destruct (C146_ctmc_timed_ascent gx_ct m' _ 1 gx_tset ll W N A HT E) as (_ & g & Dg & _ & P); [|exists m', ll, g; auto].
  intros [|[|s]] [|[|s']] Hs Hs' F Nz; try discriminate F; try (unfold ct_n in Hs, Hs'; cbn in Hs, Hs'; lia). exfalso. apply Nz. reflexivity.
Qed.
Example C146_gohmm_instance : go_proper ex_go /\ exists m' ll g, round_GoHMM 1 1 (weighted ex_gset) ex_go = Ok (m', ll) /\
  go_slope (weighted ex_gset) ex_go (go_mat m') (go_out m') (go_ini m') g /\ 0 <= g /\ (m' <> ex_go -> 0 < g).
Proof.
  destruct C71_C75_instance as (W & S & Si & F & U & Ho & V & _). pose proof (weighted_pos ex_gset U) as HT.
  assert (Hd : obs_dim 1 (weighted ex_gset)) by (intros tr t I o Io; apply in_combine_l in I; eauto).
  assert (Pr : go_proper ex_go) by (split; [apply S|]; split; [intros r I; right; apply (proj2 S r I)|exact Si]).
  split; [exact Pr|]. destruct C145_gohmm_instance as (m' & ll & E & _ & Vis & _). exists m', ll.
  destruct (C146_gohmm_ascent 1 ex_go m' 1 (weighted ex_gset) ll W) as (_ & g & Dg & P0 & P); auto; [apply F|]. exists g. auto.
Qed.
