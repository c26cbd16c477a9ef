(** C149: the best model is unique.  With different labels, a model that does not
    have the observed frequencies explains the traces strictly worse than one that
    has them. *)
From Coq Require Import String ZArith Bool Reals List Lia Lra.
From Verif Require Import Num Py SNum SPath LSum MSet SSet LSet MModels MLik MBW LFB LEM SBW LBW LBWSet SLik LPath LLik LLik2 LBWLoop LBWPath SExp LEMGen LBWMC LBWMDP LBWCT LFit PLik PBWMC PBWMDP PBWCT PBWCTU SLimit LLimit PLimit SObs LObs PObs PObs2 PGain PGain2 PObsEx PObs4.
Import ListNotations.
Local Open Scope R_scope.
Local Open Scope string_scope.

(** ** MDP *)
Theorem C149_mdp_unique : forall (m mo : mdp R) (set : list (list string * Z)),
  wf_mdp m -> nonneg_mdp m -> mdp_rows (fun x => x <= 1) m -> NoDup (mdp_lab m) ->
  mdp_n mo = mdp_n m -> mdp_lab mo = mdp_lab m -> mdp_act mo = mdp_act m -> mdp_ini mo = mdp_ini m ->
  pos_times set -> set <> [] -> alternating_set set ->
  (forall tr t, In (tr, t) set -> 0 < mdp_trace_prob m tr) ->
  mdp_frequencies set mo ->
  mdp_frequencies set m \/ set_ll (mdp_trace_prob m) set < set_ll (mdp_trace_prob mo) set.
Proof.
  intros m mo set W N S ND F1 F2 F3 F4 HT NE A HP HF.
  destruct (round_mdp_succeeds m set 1 (conj W N) A) as (m' & ll & E); [|right; exact HP|].
  { destruct set as [|[tr t] r]; [congruence|]. exists tr, t. split; [left; reflexivity|]. apply (HP tr t). left. reflexivity. }
  destruct (C73_mdp_round_is_ratio_of_expectations m m' 1 set ll W N A E) as (G1 & G2 & G3 & _ & G5 & _).
  assert (Ag : forall tr t, In (tr, t) set -> mdp_trace_prob mo tr = mdp_trace_prob m' tr).
  { apply (mdp_agree m' mo set); try congruence; auto; try (rewrite ?G1, ?G2, ?G5; apply W).
    intros s j s' Hs Hj Hs' Lt. rewrite G5 in Hs, Hs'. rewrite G1, G2 in *. rewrite (C149_mdp_round m m' 1 set ll W N ND A HP E) by assumption.
    destruct (Req_EM_T _ 0) as [Z|Z]; [lra|]. unfold prob_of. rewrite HF by (rewrite ?F1, ?F2, ?F3; assumption). rewrite F2, F3. reflexivity. }
  destruct (C145_mdp_strict m m' 1 set ll W N S HT A E) as [Q|Q]; [left|right; rewrite (set_ll_ext _ _ set Ag); exact Q].
  intros s j s' Hs Hj Hs' a x b L. pose proof (C149_mdp_round m m' 1 set ll W N ND A HP E s j s' Hs Hj Hs') as K. rewrite Q in K. cbv zeta in K. fold a x b in K.
  destruct (Req_EM_T _ 0); [lra|exact K].
Qed.
Print Assumptions C149_mdp_unique.

(** ** CTMC with dwell times *)
Theorem C149_ctmc_timed_unique : forall (m mo : ctmc R) (set : list ((list string * list R) * Z)),
  wf_ctmc m -> nonneg_mat (ct_mat m) -> NoDup (ct_lab m) ->
  square (ct_n m) (ct_mat mo) -> ct_lab mo = ct_lab m -> ct_ini mo = ct_ini m ->
  pos_times set -> set <> [] -> timed_set set -> (forall tr t d, In (tr, t) set -> In d (snd tr) -> 0 < d) ->
  (forall tr t, In (tr, t) set -> 0 < ct_density m tr) ->
  ct_frequencies set mo ->
  ct_frequencies set m \/ set_ll (ct_density m) set < set_ll (ct_density mo) set.
Proof.
  intros m mo set W N ND So F2 F3 HT NE A HD HP HF. assert (F1 : ct_n mo = ct_n m) by apply So.
  assert (NF : forall s s', is_fixed [] s s' = false) by (intros s s'; destruct s, s'; reflexivity).
  destruct (round_ct_succeeds m [] set 1 (conj W N) A) as (m' & ll & E); [|right; exact HP|].
  { destruct set as [|[tr t] r]; [congruence|]. exists tr, t. split; [left; reflexivity|]. apply (HP tr t). left. reflexivity. }
  destruct (C73_ctmc_timed_round_is_ratio_of_expectations m m' [] 1 set ll W N A E) as (G1 & G2 & _ & G4 & G5 & _).
  assert (Ag : forall tr t, In (tr, t) set -> ct_density mo tr = ct_density m' tr).
  { apply (ct_agree m' mo set); try congruence; auto; try (rewrite ?G4, ?G1; auto; apply W).
    intros s s' Hs Hs' Lt. rewrite G4 in Hs, Hs'. rewrite G1 in Lt.
    rewrite (C149_ctmc_timed_round m m' [] 1 set ll W N ND A HP E s s' Hs Hs' (NF s s')).
    destruct (Req_EM_T _ 0) as [Z|Z]; [lra|]. unfold rate. rewrite HF by (rewrite ?F1, ?F2; assumption). rewrite F2. reflexivity. }
  destruct (C145_ctmc_timed_strict m m' [] 1 set ll W N A HT E) as [Q|Q]; [intros s s' _ _ B; rewrite NF in B; discriminate| |right; rewrite (set_ll_ext _ _ set Ag); exact Q].
  left. intros s s' Hs Hs' a b L. pose proof (C149_ctmc_timed_round m m' [] 1 set ll W N ND A HP E s s' Hs Hs' (NF s s')) as K. rewrite Q in K. cbv zeta in K. fold a b in K.
  destruct (Req_EM_T _ 0); [lra|exact K].
Qed.
Print Assumptions C149_ctmc_timed_unique.

(** ** MC *)
Theorem C149_mc_unique : forall (m mo : mc R) (set : list (list string * Z)),
  wf_mc m -> (forall r, In r (mc_mat m) -> is_dist r) -> wf_mc mo -> (forall r, In r (mc_mat mo) -> is_dist r) ->
  mc_n mo = mc_n m -> mc_lab mo = mc_lab m -> mc_ini mo = mc_ini m -> NoDup (mc_lab m) ->
  pos_times set -> set <> [] -> (forall tr t, In (tr, t) set -> tr <> []) ->
  (forall tr t, In (tr, t) set -> 0 < mc_trace_prob m tr) ->
  mc_frequencies set mo ->
  mc_frequencies set m \/ set_ll (mc_trace_prob m) set < set_ll (mc_trace_prob mo) set.
Proof.
  intros m mo set W D Wo Do F1 F2 F3 ND HT NE0 NE HP HF.
  assert (Mv : forall x : mc R, wf_mc x -> (forall r, In r (mc_mat x) -> is_dist r) -> forall tr t, In (tr, t) set -> mc_trace_prob_move x tr = mc_trace_prob x tr).
  { intros x Wx Dx tr t I. apply move_trace; [exact Wx|intros r Ir; apply (Dx r Ir)|apply (NE tr t I)]. }
  assert (HPm : forall tr t, In (tr, t) set -> 0 < mc_trace_prob_move m tr) by (intros tr t I; rewrite (Mv m W D tr t I); apply (HP tr t I)).
  pose proof (mco_sub m W D) as S0.
  destruct (C148_mc_endless m 1 set W (conj (proj2 (proj1 S0)) (proj2 S0)) HT) as (it & Z & HE); [|right; exact HPm|].
  { destruct set as [|[tr t] r]; [congruence|]. exists tr, t. split; [left; reflexivity|]. apply (HPm tr t). left. reflexivity. }
  rewrite <- Z in W, D, ND, HP, HPm, S0, F1, F2, F3. pose proof (mco_inv it 1 set W D HT HPm HE 1%nat) as (W1 & D1 & (A1 & A2 & A3 & _) & P1).
  destruct (HE 0%nat) as [ll E]. rewrite <- Z.
  destruct (C145_mc_strict (it 0%nat) (it 1%nat) 1 set ll W (conj (proj2 (proj1 S0)) (proj2 S0)) HT E) as [Q|Q].
  - left. intros s s' Hs Hs' a b L. pose proof (C149_mc_round (it 0%nat) (it 1%nat) 1 set ll W D ND HT HPm E s s' Hs Hs') as K. rewrite Q in K. cbv zeta in K. fold a b in K.
    assert (T : 0 <= times_last a set) by (apply total_nonneg; [exact HT|intros; apply ends_nonneg]).
    destruct (Req_EM_T _ 0); [lra|]. apply (Rmult_eq_reg_r (times_left a set)); [|lra]. unfold Rdiv. rewrite (Rmult_assoc (moves_seen a b set)), Rinv_l, Rmult_1_r by lra.
    assert (K2 : matR (mc_mat (it 0%nat)) s s' * (times_left a set + times_last a set) = moves_seen a b set + times_last a set * matR (mc_mat (it 0%nat)) s s') by (rewrite K at 1; field; lra). lra.
  - right. destruct (C149_mc_optimal (it 1%nat) mo set W1 D1 Wo Do) as [_ M]; try congruence; auto.
    + intros tr t I. rewrite <- (Mv (it 1%nat) W1 D1 tr t I). exact (P1 tr t I).
    + rewrite <- (set_ll_ext _ _ set (Mv (it 0%nat) W D)). rewrite <- (set_ll_ext _ _ set (Mv (it 1%nat) W1 D1)) in M. lra.
Qed.
Print Assumptions C149_mc_unique.

(** ** CTMC without dwell times *)
Theorem C149_ctmc_untimed_unique : forall (m mo : ctmc R) (set : list (list string * Z)),
  wf_ctmc m -> nonneg_mat (ct_mat m) -> live m -> wf_ctmc mo -> nonneg_mat (ct_mat mo) -> live mo ->
  ct_n mo = ct_n m -> ct_lab mo = ct_lab m -> ct_ini mo = ct_ini m -> NoDup (ct_lab m) ->
  pos_times set -> set <> [] -> (forall tr t, In (tr, t) set -> tr <> [] /\ 0 < ct_trace_prob m tr) ->
  mc_frequencies set (jump_chain mo) ->
  mc_frequencies set (jump_chain m) \/ set_ll (ct_trace_prob m) set < set_ll (ct_trace_prob mo) set.
Proof.
  intros m mo set W N Lv Wo No Lo F1 F2 F3 ND HT NE HP HF.
  assert (X : forall x : ctmc R, wf_ctmc x -> set_ll (mc_trace_prob (jump_chain x)) set = set_ll (ct_trace_prob x) set) by (intros x Wx; apply set_ll_ext; intros; apply jc_trace_prob; exact Wx).
  rewrite <- !X by assumption. apply C149_mc_unique; auto.
  - apply jc_wf. exact W.
  - apply jc_dist; assumption.
  - apply jc_wf. exact Wo.
  - apply jc_dist; assumption.
  - rewrite !jc_n. exact F1.
  - intros tr t I. apply (HP tr t I).
  - intros tr t I. rewrite jc_trace_prob by exact W. apply (HP tr t I).
Qed.
Print Assumptions C149_ctmc_untimed_unique.

(** The models of PObsEx: their parameters are not the frequencies, so they score
    strictly worse. *)
Example C149_unique_instance :
  set_ll (mdp_trace_prob ob_mdp) ob_mset < set_ll (mdp_trace_prob ob_mdpbest) ob_mset /\
  set_ll (ct_density ob_ct) ob_cset < set_ll (ct_density ob_ctbest) ob_cset /\
  set_ll (mc_trace_prob ob_mc) ob_set < set_ll (mc_trace_prob ob_best) ob_set.
Proof.
  destruct C149_mdp_instance as (W & N & ND & A & P & _). destruct C149_ctmc_instance as (W2 & N2 & ND2 & A2 & P2 & _). destruct ob_counts as (C1 & C2 & C3 & C4 & C5). split; [|split].
  - destruct (C149_mdp_unique ob_mdp ob_mdpbest ob_mset) as [F|F]; auto; try discriminate; try exact ob_mfreq.
    + intros s j Hs Hj. unfold mdp_n in Hs. cbn in Hs, Hj. destruct s as [|[|s]]; [| |lia]; destruct j as [|[|j]]; try lia; unfold row_total, rsum; cbn; lra.
    + intros x [<-|[<-|[]]]; cbn; lia.
    + exfalso. specialize (F 0%nat 0%nat 1%nat ltac:(unfold mdp_n; cbn; lia) ltac:(cbn; lia) ltac:(unfold mdp_n; cbn; lia)). cbv zeta in F. cbn [nth mdp_lab mdp_act mdp_mat ob_mdp] in F.
      assert (V1 : mdp_times_left "x" "a" ob_mset = 3) by (unfold mdp_times_left, total, sumL; cbn; lra).
      assert (V2 : mdp_moves_seen "x" "a" "y" ob_mset = 1) by (unfold mdp_moves_seen, total, sumL; cbn; lra). rewrite V1, V2 in F. lra.
  - destruct (C149_ctmc_timed_unique ob_ct ob_ctbest ob_cset) as [F|F]; auto; try discriminate; try exact ob_cfreq.
    + split; [reflexivity|]. intros r [<-|[<-|[]]]; reflexivity.
    + intros x [<-|[]]; cbn; lia.
    + intros tr t d [I|[]]; inversion I; subst; intros [<-|[<-|[<-|[<-|[]]]]]; lra.
    + exfalso. specialize (F 0%nat 1%nat ltac:(unfold ct_n; cbn; lia) ltac:(unfold ct_n; cbn; lia)). cbv zeta in F. unfold matR in F. cbn [nth ct_lab ct_mat ob_ct] in F.
      assert (V1 : ct_time_seen "x" ob_cset = 2) by (unfold ct_time_seen, total, sumL; cbn; lra).
      assert (V2 : ct_moves_seen "x" "y" ob_cset = 1) by (unfold ct_moves_seen, total, sumL; cbn; lra). rewrite V1, V2 in F. lra.
  - destruct (C149_mc_unique ob_mc ob_best ob_set) as [F|F]; auto; try apply ob_wf; try reflexivity; try exact ob_nd; try exact ob_times; try discriminate; try exact ob_possible; try exact ob_freq.
    + apply ob_dist. left. reflexivity.
    + apply ob_dist. right. reflexivity.
    + intros tr t [I|[I|[]]]; inversion I; discriminate.
    + exfalso. specialize (F 0%nat 1%nat ltac:(unfold mc_n; cbn; lia) ltac:(unfold mc_n; cbn; lia)). cbv zeta in F. unfold matR in F. cbn [nth mc_lab mc_mat ob_mc] in F. rewrite C1, C4 in F. lra.
Qed.
