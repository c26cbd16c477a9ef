(** C149: concrete cases, and the limits of one round for MCs. *)
From Coq Require Import String ZArith Bool Reals List Lia Lra.
From Verif Require Import Num Py SNum SPath LSum MSet SSet MModels MLik MBW LFB SBW SLik LPath LRun LBWMC SExp PLik PBWMC PBWMDP PBWCT SLimit LLimit PLimit SObs LObs PObs PObs2.
Import ListNotations.
Local Open Scope R_scope.
Local Open Scope string_scope.

(** ** MC *)
Definition ob_mc : mc R := mkMC [[1/2; 1/2]; [1/2; 1/2]] ["x"; "y"] [1; 0] "".
Definition ob_best : mc R := mkMC [[2/3; 1/3]; [1; 0]] ["x"; "y"] [1; 0] "".
Definition ob_set : list (list string * Z) := [(["x"; "x"; "x"], 1%Z); (["x"; "y"], 1%Z)].

Lemma ob_nd : NoDup ["x"; "y"]. Proof. repeat constructor; cbn; intuition discriminate. Qed.
Lemma ob_times : pos_times ob_set. Proof. intros st [<-|[<-|[]]]; cbn; lia. Qed.
Lemma ob_wf a b c d : wf_mc (mkMC [[a; b]; [c; d]] ["x"; "y"] [1; 0] "").
Proof.
  repeat split; try reflexivity.
  - intros r [<-|[<-|[]]]; reflexivity.
  - intros v [<-|[<-|[]]]; lra.
Qed.
Lemma ob_dist (m : mc R) : m = ob_mc \/ m = ob_best -> forall r, In r (mc_mat m) -> is_dist r.
Proof. intros [->| ->] r [<-|[<-|[]]]; (split; [intros v [<-|[<-|[]]]; lra|unfold rsum; cbn; lra]). Qed.
Lemma ob_possible tr t : In (tr, t) ob_set -> 0 < mc_trace_prob ob_mc tr.
Proof.
  intros [I|[I|[]]]; inversion I; subst; unfold mc_trace_prob, trace_prob, sumL, is_label, matR, vecR; cbn; lra.
Qed.
Lemma ob_possible_move tr t : In (tr, t) ob_set -> 0 < mc_trace_prob_move ob_mc tr.
Proof.
  intros I. rewrite move_trace; [apply (ob_possible tr t I)|apply ob_wf|intros r J; apply (ob_dist ob_mc (or_introl eq_refl) r J)|].
  destruct I as [I|[I|[]]]; inversion I; discriminate.
Qed.
Lemma ob_counts : times_left "x" ob_set = 3 /\ times_last "x" ob_set = 1 /\ moves_seen "x" "x" ob_set = 2 /\ moves_seen "x" "y" ob_set = 1 /\ times_left "y" ob_set = 0.
Proof. unfold times_left, times_last, moves_seen, total, sumL; cbn. lra. Qed.
Lemma ob_freq : mc_frequencies ob_set ob_best.
Proof.
  destruct ob_counts as (C1 & C2 & C3 & C4 & C5). intros s s' Hs Hs' a b L. unfold mc_n in *. cbn in Hs, Hs'.
  destruct s as [|[|s]]; [| |lia]; destruct s' as [|[|s']]; try lia; unfold a, b in *; cbn in L |- *; rewrite ?C1, ?C3, ?C4, ?C5 in *; lra.
Qed.

(** One round does not give the observed frequencies: a trace is read as if one
    more, unobserved, move followed its last label. *)
Theorem C149_mc_one_round_refuted :
  exists (m m' : mc R) (set : list (list string * Z)) (ll : R),
    wf_mc m /\ (forall r, In r (mc_mat m) -> is_dist r) /\ NoDup (mc_lab m) /\ pos_times set /\
    (forall tr t, In (tr, t) set -> 0 < mc_trace_prob m tr) /\
    round_MC 1 set m = Ok (m', ll) /\ ~ mc_frequencies set m'.
Proof.
  assert (O : mc_ok ob_mc) by (split; [apply ob_wf|apply (mco_sub ob_mc (ob_wf _ _ _ _) (ob_dist _ (or_introl eq_refl)))]).
  destruct (round_mc_succeeds ob_mc ob_set 1 O) as (m' & ll & E); [|right; apply ob_possible_move|].
  { exists ["x"; "y"], 1%Z. split; [right; left; reflexivity|apply (ob_possible_move _ 1%Z); right; left; reflexivity]. }
  exists ob_mc, m', ob_set, ll. split; [apply ob_wf|]. split; [apply ob_dist; left; reflexivity|]. split; [exact ob_nd|]. split; [exact ob_times|].
  split; [exact ob_possible|]. split; [exact E|]. intros F. destruct ob_counts as (C1 & C2 & C3 & C4 & C5).
  destruct (round_mc_ok ob_mc ob_set 1 m' ll O E ob_times) as (_ & F1 & F2 & _).
  specialize (F 0%nat 1%nat). rewrite F1, F2 in F. cbv zeta in F. unfold mc_n in F. cbn [nth mc_lab mc_mat ob_mc length] in F. rewrite C1, C4 in F.
  pose proof (C149_mc_round ob_mc m' 1 ob_set ll (ob_wf _ _ _ _) (ob_dist _ (or_introl eq_refl)) ob_nd ob_times ob_possible_move E 0%nat 1%nat ltac:(unfold mc_n; cbn; lia) ltac:(unfold mc_n; cbn; lia)) as K.
  cbv zeta in K. cbn [nth mc_lab ob_mc] in K. rewrite C1, C2, C4 in K. destruct (Req_EM_T (3 + 1) 0) as [Z|_]; [lra|].
  assert (V : matR (mc_mat ob_mc) 0 1 = 1 / 2) by reflexivity. rewrite V in K. rewrite F in K by (try lia; lra). lra.
Qed.
Print Assumptions C149_mc_one_round_refuted.

Example C149_mc_instance :
  (exists it, it 0%nat = ob_mc /\ endless (round_MC 1 ob_set) it /\ Un_cv (fun k => matR (mc_mat (it k)) 0 1) (1 / 3)) /\
  set_ll (mc_trace_prob ob_mc) ob_set <= set_ll (mc_trace_prob ob_best) ob_set.
Proof.
  destruct ob_counts as (C1 & C2 & C3 & C4 & C5). split.
  - destruct (mco_sub ob_mc (ob_wf _ _ _ _) (ob_dist _ (or_introl eq_refl))) as [[W N] S1].
    destruct (C148_mc_endless ob_mc 1 ob_set W (conj N S1) ob_times) as (it & Z & E); [|right; exact ob_possible_move|].
    { exists ["x"; "y"], 1%Z. split; [right; left; reflexivity|apply (ob_possible_move _ 1%Z); right; left; reflexivity]. }
    exists it. split; [exact Z|]. split; [exact E|].
    pose proof (C149_mc_converges it 1 ob_set) as K. rewrite Z in K.
    specialize (K (ob_wf _ _ _ _) (ob_dist _ (or_introl eq_refl)) ob_nd ob_times ob_possible_move E 0%nat 1%nat ltac:(unfold mc_n; cbn; lia) ltac:(unfold mc_n; cbn; lia)).
    cbv zeta in K. cbn [nth mc_lab ob_mc] in K. rewrite C1, C4 in K. apply K. lra.
  - apply C149_mc_optimal; try apply ob_wf; try reflexivity; try exact ob_nd; try exact ob_times.
    + apply ob_dist. left. reflexivity.
    + apply ob_dist. right. reflexivity.
    + discriminate.
    + intros tr t [I|[I|[]]]; inversion I; discriminate.
    + exact ob_possible.
    + exact ob_freq.
Qed.

(** ** MDP *)
Definition ob_mdp : mdp R := mkMDP [[[1/2; 1/2]; [1/2; 1/2]]; [[1/2; 1/2]; [1/2; 1/2]]] ["x"; "y"] ["a"; "b"] [1; 0] "".
Definition ob_mdpbest : mdp R := mkMDP [[[2/3; 1/3]; [0; 1]]; [[1; 0]; [1/2; 1/2]]] ["x"; "y"] ["a"; "b"] [1; 0] "".
Definition ob_mset : list (list string * Z) := [(["x"; "a"; "x"; "b"; "y"], 2%Z); (["x"; "a"; "y"; "a"; "x"], 1%Z)].
Lemma ob_mfreq : mdp_frequencies ob_mset ob_mdpbest.
Proof.
  intros s j s' Hs Hj Hs' a x b L. unfold mdp_n in *. cbn in Hs, Hj, Hs'. unfold mdp_times_left, mdp_moves_seen, total, sumL in *.
  destruct s as [|[|s]]; [| |lia]; destruct j as [|[|j]]; try lia; destruct s' as [|[|s']]; try lia; unfold a, x, b in *; cbn in L |- *; lra.
Qed.
Example C149_mdp_instance : wf_mdp ob_mdp /\ nonneg_mdp ob_mdp /\ NoDup (mdp_lab ob_mdp) /\ alternating_set ob_mset /\
  (forall tr t, In (tr, t) ob_mset -> 0 < mdp_trace_prob ob_mdp tr) /\
  (exists m' ll, round_MDP 1 ob_mset ob_mdp = Ok (m', ll) /\ prob_of m' 0 0 1 = 1 / 3) /\
  set_ll (mdp_trace_prob ob_mdp) ob_mset <= set_ll (mdp_trace_prob ob_mdpbest) ob_mset.
Proof.
  assert (W : wf_mdp ob_mdp).
  { split; [|split; [reflexivity|split; [repeat constructor; cbn; intuition discriminate|split; [reflexivity|]]]].
    - intros ra [<-|[<-|[]]]; (split; [reflexivity|]); intros r [<-|[<-|[]]]; reflexivity.
    - intros v [<-|[<-|[]]]; lra. }
  assert (N : nonneg_mdp ob_mdp) by (intros ra [<-|[<-|[]]] r [<-|[<-|[]]] v [<-|[<-|[]]]; lra).
  assert (HT : pos_times ob_mset) by (intros st [<-|[<-|[]]]; cbn; lia).
  assert (A : alternating_set ob_mset) by (intros tr t [I|[I|[]]]; inversion I; reflexivity).
  assert (P : forall tr t, In (tr, t) ob_mset -> 0 < mdp_trace_prob ob_mdp tr).
  { intros tr t [I|[I|[]]]; inversion I; subst; unfold mdp_trace_prob, trace_prob, sumL, is_label, act_mat, Sum, sumL, vecR; cbn; lra. }
  split; [exact W|]. split; [exact N|]. split; [exact ob_nd|]. split; [exact A|]. split; [exact P|]. split.
  - destruct (round_mdp_succeeds ob_mdp ob_mset 1 (conj W N) A) as (m' & ll & E); [|right; exact P|].
    { eexists _, _. split; [left; reflexivity|eapply P; left; reflexivity]. }
    exists m', ll. split; [exact E|]. rewrite (C149_mdp_round ob_mdp m' 1 ob_mset ll W N ob_nd A P E) by (unfold mdp_n; cbn; lia).
    assert (V1 : mdp_times_left "x" "a" ob_mset = 3) by (unfold mdp_times_left, total, sumL; cbn; lra).
    assert (V2 : mdp_moves_seen "x" "a" "y" ob_mset = 1) by (unfold mdp_moves_seen, total, sumL; cbn; lra).
    cbn [nth mdp_lab mdp_act ob_mdp]. rewrite V1, V2. destruct (Req_EM_T 3 0); [lra|reflexivity].
  - apply C149_mdp_optimal; auto; try exact ob_nd; try reflexivity; try discriminate; [|exact ob_mfreq].
    intros s j Hs Hj. unfold mdp_n in Hs. cbn in Hs, Hj. destruct s as [|[|s]]; [| |lia]; destruct j as [|[|j]]; try lia; unfold row_total, rsum; cbn; lra.
Qed.

(** ** CTMC *)
Definition ob_ct : ctmc R := mkCTMC [[1; 1]; [1; 1]] ["x"; "y"] [1; 0] "".
Definition ob_ctbest : ctmc R := mkCTMC [[1; 1/2]; [1/3; 0]] ["x"; "y"] [1; 0] "".
Definition ob_cset : list ((list string * list R) * Z) := [((["x"; "x"; "x"; "y"; "x"], [1/2; 1/2; 1; 3]), 1%Z)].
Lemma ob_cfreq : ct_frequencies ob_cset ob_ctbest.
Proof.
  intros s s' Hs Hs' a b L. unfold ct_n in *. cbn in Hs, Hs'. unfold ct_time_seen, ct_moves_seen, total, sumL in *.
  destruct s as [|[|s]]; [| |lia]; destruct s' as [|[|s']]; try lia; unfold a, b in *; cbn in L |- *; lra.
Qed.
Example C149_ctmc_instance : wf_ctmc ob_ct /\ nonneg_mat (ct_mat ob_ct) /\ NoDup (ct_lab ob_ct) /\ timed_set ob_cset /\
  (forall tr t, In (tr, t) ob_cset -> 0 < ct_density ob_ct tr) /\
  (exists m' ll, round_CTMC_timed 1 [] ob_cset ob_ct = Ok (m', ll) /\ rate m' 0 1 = 1 / 2) /\
  set_ll (ct_density ob_ct) ob_cset <= set_ll (ct_density ob_ctbest) ob_cset.
Proof.
  assert (W : wf_ctmc ob_ct).
  { repeat split; try reflexivity; [intros r [<-|[<-|[]]]; reflexivity|intros v [<-|[<-|[]]]; lra]. }
  assert (N : nonneg_mat (ct_mat ob_ct)) by (intros r [<-|[<-|[]]] v [<-|[<-|[]]]; lra).
  assert (HT : pos_times ob_cset) by (intros st [<-|[]]; cbn; lia).
  assert (A : timed_set ob_cset) by (intros tr t [I|[]]; inversion I; subst; split; [reflexivity|]; intros d [<-|[<-|[<-|[<-|[]]]]]; lra).
  assert (D : forall tr t d, In (tr, t) ob_cset -> In d (snd tr) -> 0 < d) by (intros tr t d [I|[]]; inversion I; subst; intros [<-|[<-|[<-|[<-|[]]]]]; lra).
  assert (P : forall tr t, In (tr, t) ob_cset -> 0 < ct_density ob_ct tr).
  { intros tr t [I|[]]; inversion I; subst. unfold ct_density. apply (trace_prob_pos _ _ _ _ [0; 0; 0; 1; 0]%nat).
    - reflexivity.
    - intros i [<-|[<-|[<-|[<-|[<-|[]]]]]]; unfold ct_n; cbn; lia.
    - intros i Hi. unfold ct_n in Hi. cbn in Hi. destruct i as [|[|i]]; [| |lia]; unfold vecR; cbn; lra.
    - intros B i j I2 Hi Hj. apply in_map_iff in I2. destruct I2 as [d [<- _]]. unfold jump_density. apply Rmult_le_pos; [apply (mget_nonneg (ct_mat ob_ct) i j N)|apply Rlt_le, exp_pos].
    - intros B i I2 Hi. apply in_map_iff in I2. destruct I2 as [o [<- _]]. unfold is_label. destruct (String.eqb _ _); lra.
    - discriminate.
    - unfold vecR. cbn. lra.
    - unfold jump_density, is_label, matR. cbn. rewrite ?Rmult_1_l, ?Rmult_1_r. repeat apply Rmult_lt_0_compat; apply exp_pos. }
  split; [exact W|]. split; [exact N|]. split; [exact ob_nd|]. split; [exact A|]. split; [exact P|]. split.
  - destruct (round_ct_succeeds ob_ct [] ob_cset 1 (conj W N) A) as (m' & ll & E); [|right; exact P|].
    { eexists _, _. split; [left; reflexivity|eapply P; left; reflexivity]. }
    exists m', ll. split; [exact E|]. rewrite (C149_ctmc_timed_round ob_ct m' [] 1 ob_cset ll W N ob_nd A P E) by (try reflexivity; unfold ct_n; cbn; lia).
    assert (V1 : ct_time_seen "x" ob_cset = 2) by (unfold ct_time_seen, total, sumL; cbn; lra).
    assert (V2 : ct_moves_seen "x" "y" ob_cset = 1) by (unfold ct_moves_seen, total, sumL; cbn; lra).
    cbn [nth ct_lab ob_ct]. rewrite V1, V2. destruct (Req_EM_T 2 0); [lra|reflexivity].
  - apply C149_ctmc_timed_optimal; auto; try exact ob_nd; try reflexivity; try discriminate; try exact ob_cfreq.
    split; [reflexivity|]. intros r [<-|[<-|[]]]; reflexivity.
Qed.
