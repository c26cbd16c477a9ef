(** C112: rounds with update_constant on timed traces of two observations, for models
    whose rates are numbers, each used by one transition. *)
From Coq Require Import String ZArith Bool Reals List Lia Lra Psatz FunctionalExtensionality.
From Verif Require Import Num Py SNum SPath LSum LTools MSet SSet MModels MCtor MLik MBW MPctmc SPctmc LPctmc LCtor LFB LEM SBW SExp LBW LBWSet LBWMC SLik LLik LBWMDP LBWCT LLik2 LBWLoop PBWCT PPctmc MPLearn SPLearn LPLearn LPLearn2 LPLearn3 LPLearn4 PPLearn PPLearn2 PPLearn3 PTight PTight2 PPctmc3 PRace PInit3 LGrad2 PConst.
Import ListNotations.
Local Open Scope R_scope.

(** Every transition has a number of its own as rate, and traces do not return to
    its source with the same label. *)
Definition own_numbers (m : pctmc R) (c : ctmc R) : Prop :=
  forall i j, (i < pc_n m)%nat -> (j < pc_n m)%nat -> nth j (nth i (pc_mat m) []) 0%nat <> 0%nat -> only_use m (nth j (nth i (pc_mat m) []) 0%nat) i j /\ no_return c i.

Lemma round_shape maxroot kind p pl ts (m m' : pctmc R) ll : wf_pctmc m -> round_PCTMC maxroot kind true p pl ts m = Ok (m', ll) ->
  pc_mat m' = pc_mat m /\ pc_lab m' = pc_lab m /\ pc_ini m' = pc_ini m /\ nth 0 (pc_expr m') (EConst 0) = EConst 0.
Proof.
  intros (_ & _ & _ & W0 & _) E. unfold round_PCTMC in E. apply bind_ok in E. destruct E as (h & Eh & E). apply bind_ok in E. destruct E as (temp & Et & E).
  unfold update_PCTMC in E. apply bind_ok in E. destruct E as (tm & Eu & E). destruct tm as [|st0 temp0]; [discriminate|].
  apply bind_ok in E. destruct E as (v1 & _ & E). apply bind_ok in E. destruct E as (v2 & _ & E). apply bind_ok in E. destruct E as (v3 & _ & E). injection E as Em _. rewrite <- Em.
  unfold instantiate. destruct (checkRates _ _); cbn [snd pc_mat pc_lab pc_ini pc_expr]; repeat split; destruct (pc_expr m) as [|e0 es]; auto.
Qed.
Lemma own_rate maxroot p pl set (m m' : pctmc R) ll c c' : wf_pctmc m -> valued m -> realises m c -> realises m' c' -> two_labels set -> own_numbers m c ->
  round_PCTMC maxroot KTimedMatrix true p pl (timed_traces set) m = Ok (m', ll) -> forall i j, (i < pc_n m)%nat -> (j < pc_n m)%nat ->
  rate c i j = 0 /\ rate c' i j = 0 \/
  rate c' i j = if Req_EM_T (set_expected (ct_density c) (ct_expected_dwell c i) set) 0 then rate c i j
                else set_expected (ct_density c) (ct_expected_moves c i j) set / set_expected (ct_density c) (ct_expected_dwell c i) set.
Proof.
  intros W V Rc Rc' T O E i j Hi Hj. destruct (round_shape _ _ _ _ _ _ _ _ W E) as (Em & El & Ei & E0).
  assert (En : pc_n m' = pc_n m) by (unfold pc_n; rewrite Em; reflexivity).
  pose proof Rc as (_ & _ & _ & _ & Hr). pose proof Rc' as (_ & _ & _ & _ & Hr'). specialize (Hr i j Hi Hj). specialize (Hr' i j ltac:(lia) ltac:(lia)).
  unfold has_rate, transition in Hr, Hr'. rewrite Em in Hr'. specialize (O i j Hi Hj). unfold rate. set (k := nth j (nth i (pc_mat m) []) 0%nat) in *.
  assert (Cst : forall val x v, has_value val (EConst x) v -> v = x) by (intros val x v (rho & _ & ->); reflexivity).
  destruct (Nat.eq_dec k 0) as [Z|NZ].
  - left. rewrite Z in Hr, Hr'. destruct W as (_ & _ & _ & W0 & _). rewrite W0 in Hr. rewrite E0 in Hr'. split; eapply Cst; eassumption.
  - right. destruct (O NZ) as [U N]. pose proof (C112_constants_two_labels_partial maxroot p pl set m m' ll c k i j W V Rc T U N E) as K. cbv zeta in K.
    rewrite K in Hr'. destruct (Req_EM_T _ 0) as [Z|_].
    + destruct U as (_ & Nk & _). apply (has_value_fun (current m) (nth k (pc_expr m) (EConst 0))); [|exact Hr]. apply (has_value_ext (current m')); [|exact Hr']. intros x Hx. destruct (Nk x Hx).
    + eapply Cst. exact Hr'.
Qed.
Lemma own_gain X D r r' : 0 <= X -> 0 <= D -> 0 <= r -> (0 < X -> 0 < r) -> (r = 0 /\ r' = 0 \/ r' = if Req_EM_T D 0 then r else X / D) -> 0 <= X * ln (r' / r) - D * (r' - r).
Proof.
  intros HX HD Hr Hs [[-> ->]|E].
  - destruct (Rle_lt_or_eq_dec 0 X HX) as [P|<-]; [specialize (Hs P); lra|]. lra.
  - destruct (Req_EM_T D 0) as [->|N].
    + subst r'. destruct (Rle_lt_or_eq_dec 0 X HX) as [P|<-]; [|lra]. specialize (Hs P). replace (r / r) with 1 by (field; lra). rewrite ln_1. lra.
    + assert (P : 0 < D) by lra. destruct (Rle_lt_or_eq_dec 0 X HX) as [PX|<-].
      * specialize (Hs PX). assert (Pr : 0 < r') by (subst r'; apply Rdiv_lt_0_compat; assumption). assert (EX : X = D * r') by (subst r'; field; lra).
        assert (L : ln (r / r') <= r / r' - 1).
        { pose proof (exp_ineq1_le (ln (r / r'))) as Q. rewrite exp_ln in Q by (apply Rdiv_lt_0_compat; assumption). lra. }
        replace (ln (r' / r)) with (- ln (r / r')) by (unfold Rdiv; rewrite !ln_mult, !ln_Rinv by (try apply Rinv_0_lt_compat; assumption); ring).
        assert (X * ln (r / r') <= X * (r / r' - 1)) by (apply Rmult_le_compat_l; lra). assert (X * (r / r' - 1) = D * (r - r')) by (rewrite EX; field; lra). lra.
      * assert (r' = 0) by (subst r'; unfold Rdiv; ring). nra.
Qed.
(** The likelihood does not fall. *)
Theorem C112_constants_likelihood_partial : forall (maxroot : list R -> res R) (p : nat) (pl : plan R) set (m m' : pctmc R) (ll : R) (c c' : ctmc R),
  wf_pctmc m -> valued m -> realises m c -> realises m' c' -> two_labels set -> timed_set set -> pos_times set -> own_numbers m c ->
  round_PCTMC maxroot KTimedMatrix true p pl (timed_traces set) m = Ok (m', ll) ->
  set_ll (ct_density c) set <= set_ll (ct_density c') set /\
  (forall tr z, In (tr, z) set -> (0 < ct_density c tr <-> 0 < ct_density c' tr)).
Proof.
  intros maxroot p pl set m m' ll c c' W V Rc Rc' T Ts Tp O E. pose proof (own_rate _ _ _ _ _ _ _ _ _ W V Rc Rc' T O E) as Rt.
  destruct (round_shape _ _ _ _ _ _ _ _ W E) as (Em & El & Ei & E0). assert (En : pc_n m' = pc_n m) by (unfold pc_n; rewrite Em; reflexivity).
  assert (Ec : exists h, hval m = Ok h) by (unfold round_PCTMC in E; apply bind_ok in E; destruct E as (h & Eh & _); eauto). destruct Ec as [h Eh].
  destruct (realises_unique m c h Rc (hval_realises m h Eh)) as (M1 & M2 & M3).
  assert (Wc : wf_ctmc c) by (pose proof (hval_wf m h W Eh) as Wh; unfold wf_ctmc, ct_n in *; rewrite M1, M2, M3; exact Wh).
  assert (Nc : nonneg_mat (ct_mat c)) by (rewrite M1; exact (hval_nonneg m h V Eh)).
  pose proof Rc as (La & Ia & Na & _ & _). pose proof Rc' as (La' & Ia' & Na' & Sq' & _).
  assert (Xn : forall s s', (s < ct_n c)%nat -> (s' < ct_n c)%nat -> 0 <= set_expected (ct_density c) (ct_expected_moves c s s') set) by (intros; apply em_X_nonneg; auto).
  assert (Dn : forall s, (s < ct_n c)%nat -> 0 <= set_expected (ct_density c) (ct_expected_dwell c s) set) by (intros; apply em_D_nonneg; auto).
  assert (Xs : forall s s', (s < ct_n c)%nat -> (s' < ct_n c)%nat -> 0 < set_expected (ct_density c) (ct_expected_moves c s s') set -> 0 < rate c s s') by (intros s s' H H'; apply (em_X_supp c set); auto).
  assert (Rn : forall s s', 0 <= rate c s s') by (intros; apply mget_nonneg; exact Nc).
  assert (Rn' : forall s s', (s < ct_n c)%nat -> (s' < ct_n c)%nat -> 0 <= rate c' s s').
  { intros s s' H H'. destruct (Rt s s' ltac:(lia) ltac:(lia)) as [[_ ->]| ->]; [lra|]. destruct (Req_EM_T _ 0) as [_|N]; [apply Rn|]. specialize (Dn s H). apply Rmult_le_pos; [apply Xn; assumption|]. apply Rlt_le, Rinv_0_lt_compat. lra. }
  apply ct_em_mono; auto.
  - split; [change (ct_n c' = ct_n c); congruence|]. intros r I. rewrite Na, <- En. apply Sq'. exact I.
  - intros r I x J. apply (In_nth _ _ []) in I. destruct I as [i [Hi <-]]. apply (In_nth _ _ 0) in J. destruct J as [j [Hj <-]]. unfold ct_n in Na'. assert (L : length (nth i (ct_mat c') []) = pc_n m') by (apply Sq', nth_In; lia). apply (Rn' i j); lia.
  - congruence.
  - congruence.
  - intros s s' H H' Z. destruct (Rt s s' ltac:(lia) ltac:(lia)) as [[_ ->]| ->]; [reflexivity|]. destruct (Req_EM_T _ 0); [exact Z|].
    specialize (Xn s s' H H'). specialize (Xs s s' H H'). assert (set_expected (ct_density c) (ct_expected_moves c s s') set = 0) as -> by (destruct (Rle_lt_or_eq_dec 0 _ Xn) as [P|P]; [specialize (Xs P); lra|auto]). unfold Rdiv. ring.
  - intros s s' H H' P. specialize (Xs s s' H H' P). destruct (Rt s s' ltac:(lia) ltac:(lia)) as [[Z _]| ->]; [lra|]. destruct (Req_EM_T _ 0) as [_|N]; [exact Xs|]. specialize (Dn s H). apply Rdiv_lt_0_compat; lra.
  - apply Sum_nonneg. intros s H. apply Sum_nonneg. intros s' H'. apply own_gain; auto. apply Rt; lia.
Qed.
Print Assumptions C112_constants_likelihood_partial.

(** ** A model with two numbers: the rate 5 of the only move of the trace becomes 1 *)
Definition exN (v : R) : pctmc R := mkPC [[0; 1]; [2; 0]]%nat ["init"; "a"]%string [EConst 0; EConst v; EConst 3] [] [] [] [1; 0] "m".
Definition exNC (v : R) : ctmc R := mkCTMC [[0; v]; [3; 0]] ["init"; "a"]%string [1; 0] "m".
Definition exNP : plan R := mkPlan [] [] [] [] [].
Definition exNT : list ((list string * list R) * Z) := [((["init"; "a"]%string, [1]), 1%Z)].
Lemma exNC_wf v : wf_ctmc (exNC v).
Proof. unfold wf_ctmc, square, ct_n. cbn. repeat split; auto; [intros r [<-|[<-|[]]]; reflexivity|]. intros x [<-|[<-|[]]]; lra. Qed.
Lemma exNC_nn v : 0 <= v -> nonneg_mat (ct_mat (exNC v)).
Proof. intros V r [<-|[<-|[]]]; intros x [<-|[<-|[]]]; lra. Qed.
Lemma exN_jump v t j : jump_density (exNC v) t 0 j = nth j [0; v] 0 * exp (- (v * t)).
Proof. unfold jump_density, matR, exit_rate. cbn. replace (0 + (v + 0)) with v by ring. reflexivity. Qed.
Lemma exN_density v t : ct_density (exNC v) (["init"; "a"]%string, [t]) = v * exp (- (v * t)).
Proof. unfold ct_density, trace_prob, paths. cbn [fst snd map length]. unfold sumL. cbn -[jump_density]. rewrite !exN_jump. unfold is_label, vecR. cbn. ring. Qed.
Lemma exN_hval v : hval (exN v) = Ok (exNC v).
Proof. reflexivity. Qed.
Lemma exN_work : processWork_PCTMC KTimedMatrix true (exN 5) (exNC 5) exNP (["init"; "a"]%string, Some [1]) 1 =
  Ok (Some (mkStatPC [Some (1, 1); Some (0, 0)] [] [] [] (5 * exp (- (5 * 1))) 1)).
Proof.
  unfold processWork_PCTMC. cbn [fst length Nat.ltb Nat.leb]. assert (Nn : nonneg_mat (ct_mat (exNC 5))) by (apply exNC_nn; lra).
  destruct (two_fb (exNC 5) (exNC_wf 5) Nn "init"%string "a"%string 1) as (A1 & A2 & B0 & B1 & Ef & V1 & V2 & V3). rewrite Ef. cbn [bind].
  rewrite (C112_matrix_density (exNC 5) ["init"; "a"]%string [1] _ _ (exNC_wf 5) Nn eq_refl Ef), exN_density. clear Ef. pose proof (exp_pos (- (5 * 1))) as Xp.
  pose proof (V1 0%nat ltac:(cbn; lia)) as Va. pose proof (V2 1%nat ltac:(cbn; lia)) as Vb. pose proof (V3 0%nat ltac:(cbn; lia)) as Vc. pose proof (V3 1%nat ltac:(cbn; lia)) as Vd.
  change (ct_n (exNC 5)) with 2%nat in *. unfold Sum, sumL in Va, Vc, Vd. cbn [seq map rsum fold_right] in Va, Vc, Vd. rewrite !ct_w_eq in Va. rewrite !ct_w_eq in Vc. rewrite !ct_w_eq in Vd.
  rewrite exN_jump in Va. rewrite (exN_jump 5 1 0), (exN_jump 5 1 1) in Vc. set (P := exp (- (5 * 1))) in *. unfold is_label in Va, Vb, Vc, Vd. cbn -[jump_density] in Va, Vb, Vc, Vd.
  assert (E1 : vget A1 0 = 0) by (rewrite Va; unfold vget; cbn -[jump_density]; nR; ring). assert (E2 : vget B0 0 = 5 * P) by (rewrite Vc; ring).
  assert (E3 : vget B1 1 = 1) by exact Vb. assert (E4 : vget B0 1 = 0) by (rewrite Vd; ring).
  assert (Ew : ct_w (exNC 5) ("init"%string, 1) 0 1 = 5 * P) by (rewrite ct_w_eq, exN_jump; unfold is_label; cbn; fold P; ring).
  assert (Ex : ct_w (exNC 5) ("init"%string, 1) 1 0 = 0) by (rewrite ct_w_eq; unfold is_label; cbn -[jump_density]; ring).
  nR. unfold Reqb. destruct (Req_EM_T (5 * P) 0) as [Z|_]; [lra|].
  cbn [exN pc_expr app length seq Nat.sub mmap]. unfold work_cste. cbn [exN pc_expr nth symbols].
  change (first_use (exN 5) 1) with (Ok (0, 1)%nat). change (first_use (exN 5) 2) with (Ok (1, 0)%nat). fold (exN 5). cbn [bind fst snd]. rewrite !two_stay. cbn [bind]. rewrite !two_move. cbn [bind].
  change (vget (ct_ini (exNC 5)) 0) with 1. change (vget (ct_ini (exNC 5)) 1) with 0. rewrite E1, E2, E3, E4, Ew, Ex. cbn [exNP pl_cat1 pl_cat2 pl_cat3 mmap bind]. nR.
  repeat f_equal; field; lra.
Qed.
Lemma exN_ok : wf_pctmc (exN 5) /\ valued (exN 5) /\ own_numbers (exN 5) (exNC 5).
Proof.
  destruct (hval_realises _ _ (exN_hval 5)) as (_ & _ & En & Sq & Rr). split; [|split].
  - assert (Hx : forall x, In x [1; 0] -> 0 <= x) by (intros x [<-|[<-|[]]]; lra).
    split; [intros r [<-|[<-|[]]]; (split; [reflexivity|intros x [<-|[<-|[]]]; cbn; lia])|]. repeat split; exact Hx.
  - split; [intros p []|]. intros i j r Hi Hj H. rewrite (has_value_fun _ _ _ _ H (Rr i j Hi Hj)). apply mget_nonneg. apply exNC_nn. lra.
  - intros i j Hi Hj N. cbn in Hi, Hj. split.
    + destruct i as [|[|]]; try lia; destruct j as [|[|]]; try lia; cbn in N; try lia; (split; [cbn; lia|]; split; [intros x []|]; split; [cbn; lia|]; split; [cbn; lia|]; intros i' j' Hi' Hj'; cbn in Hi', Hj'; destruct i' as [|[|]]; try lia; destruct j' as [|[|]]; try lia; cbn; split; try lia; auto).
    + intros s Hs Hn Hl. cbn in Hs. destruct s as [|[|]]; try lia; [|exfalso; apply Hn; reflexivity]. destruct i as [|[|]]; try lia; [reflexivity|discriminate Hl].
Qed.
Example C112_constants_likelihood_instance : forall maxroot, exists ll, round_PCTMC maxroot KTimedMatrix true 1 exNP (timed_traces exNT) (exN 5) = Ok (exN 1, ll) /\
  wf_pctmc (exN 5) /\ valued (exN 5) /\ realises (exN 5) (exNC 5) /\ realises (exN 1) (exNC 1) /\ two_labels exNT /\ timed_set exNT /\ pos_times exNT /\ own_numbers (exN 5) (exNC 5).
Proof.
  intros maxroot. destruct exN_ok as (W & V & O). assert (I : forall x, In x exNT -> x = ((["init"; "a"]%string, [1]), 1%Z)) by (intros x [<-|[]]; reflexivity).
  eexists. split; [|split; [exact W|split; [exact V|split; [exact (hval_realises _ _ (exN_hval 5))|split; [exact (hval_realises _ _ (exN_hval 1))|split; [|split; [|split; [|exact O]]]]]]]].
  - unfold round_PCTMC. rewrite exN_hval. cbn [bind]. unfold run_workers. cbn [timed_traces exNT map mmap fst snd]. rewrite exN_work. cbn [bind Nat.ltb Nat.leb].
    unfold update_PCTMC, unwrap. cbn [mmap bind map sp_1 sp_2 sp_3 sp_cste exNP pl_cat1 pl_cat2 pl_cat3 psum_all msum_all csum_all fold_left combine exN pc_expr zipwith].
    unfold new_cste. nR. unfold Reqb. destruct (Req_EM_T 1 0) as [Z|_]; [lra|]. destruct (Req_EM_T 0 0) as [_|Z]; [|lra]. replace (1 / 1) with 1 by field.
    unfold instantiate. destruct (checkRates _ _); reflexivity.
  - intros tr z H. apply I in H. injection H as -> ->. eauto.
  - intros tr z H. apply I in H. injection H as -> ->. split; [reflexivity|]. intros d [<-|[]]. lra.
  - intros st H. apply I in H. subst st. cbn. lia.
Qed.
