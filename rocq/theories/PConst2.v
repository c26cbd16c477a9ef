(** C112: why C112_constants_two_labels_partial asks that traces do not return to
    the source state. *)
From Coq Require Import String ZArith Bool Reals List Lia Lra Psatz FunctionalExtensionality.
From Verif Require Import Num Py SNum SPath LSum LTools MSet SSet MModels MCtor MLik MBW MPctmc SPctmc LPctmc LCtor LFB LEM SBW SExp LBW LBWSet LBWMC SLik LLik LBWMDP LBWCT LLik2 LBWLoop PBWCT PPctmc MPLearn SPLearn LPLearn LPLearn2 LPLearn3 LPLearn4 PPLearn PPLearn2 PPLearn3 PTight PTight2 PPctmc3 PRace PInit3 LGrad2 PConst.
Import ListNotations.
Local Open Scope R_scope.

(** ** A first state with a self-loop of rate 1 and a transition of rate 1, two numbers
    (jajapy/base/BW.py 1081-1096 estimates both). *)
Definition exR : pctmc R := mkPC [[1; 2]; [3; 0]]%nat ["init"; "a"]%string [EConst 0; EConst 1; EConst 1; EVar "x"] [("x"%string, 3)] [[(1, 0)]]%Z ["x"%string] [1; 0] "m".
Definition exRC : ctmc R := mkCTMC [[1; 1]; [3; 0]] ["init"; "a"]%string [1; 0] "m".
Definition exRP : plan R := mkPlan [[((1, 0), 1)]]%nat ["x"%string] [] [] [((1, 0)%nat, 1)].
Definition exRT : list ((list string * list R) * Z) := [((["init"; "a"]%string, [1]), 1%Z); ((["init"; "a"]%string, [2]), 1%Z)].
Lemma exRC_wf : wf_ctmc exRC.
Proof. unfold wf_ctmc, square, ct_n. cbn. repeat split; auto; [intros r [<-|[<-|[]]]; reflexivity|]. intros x [<-|[<-|[]]]; lra. Qed.
Lemma exRC_nn : nonneg_mat (ct_mat exRC).
Proof. intros r [<-|[<-|[]]]; intros x [<-|[<-|[]]]; lra. Qed.
Lemma exR_jump t j : jump_density exRC t 0 j = nth j [1; 1] 0 * exp (- (2 * t)).
Proof. unfold jump_density, matR, exit_rate. cbn. replace (1 + (1 + 0)) with 2 by ring. reflexivity. Qed.
Lemma exR_density t : ct_density exRC (["init"; "a"]%string, [t]) = exp (- (2 * t)).
Proof.
  unfold ct_density, trace_prob, paths. cbn [fst snd map length]. unfold sumL. cbn -[jump_density]. rewrite !exR_jump. unfold is_label, vecR. cbn. ring.
Qed.
Definition wr (t : R) : R := 1 + exp (- (2 * t)).
Lemma exR_work t : exists s0, processWork_PCTMC KTimedMatrix true exR exRC exRP (["init"; "a"]%string, Some [t]) 1 =
  Ok (Some (mkStatPC [s0; Some (wr t * t, wr t); None] [(0, 0)] [] [] (exp (- (2 * t))) 1)).
Proof.
  unfold processWork_PCTMC. cbn [fst length Nat.ltb Nat.leb].
  destruct (two_fb exRC exRC_wf exRC_nn "init"%string "a"%string t) as (A1 & A2 & B0 & B1 & Ef & V1 & V2 & V3). rewrite Ef. cbn [bind].
  rewrite (C112_matrix_density exRC ["init"; "a"]%string [t] _ _ exRC_wf exRC_nn eq_refl Ef), exR_density. clear Ef. pose proof (exp_pos (- (2 * t))) as Xp. set (P := exp (- (2 * t))) in *.
  specialize (V1 0%nat ltac:(cbn; lia)). pose proof (V2 1%nat ltac:(cbn; lia)) as V2'. specialize (V3 0%nat ltac:(cbn; lia)).
  change (ct_n exRC) with 2%nat in *. unfold Sum, sumL in V1, V3. cbn [seq map rsum fold_right] in V1, V3. rewrite !ct_w_eq in V1, V3. rewrite !exR_jump in V1, V3. fold P in V1, V3.
  unfold is_label in V1, V2', V3. cbn in V1, V2', V3.
  assert (E1 : vget A1 0 = P) by (rewrite V1; unfold vget; cbn; nR; ring). assert (E2 : vget B0 0 = P) by (rewrite V3; rewrite ?exR_jump; fold P; cbn; ring). assert (E3 : vget B1 1 = 1) by exact V2'.
  assert (E0 : vget (ct_ini exRC) 0 = 1) by reflexivity. assert (Ew : ct_w exRC ("init"%string, t) 0 1 = P).
  { rewrite ct_w_eq. rewrite exR_jump. unfold is_label. cbn. fold P. ring. }
  nR. unfold Reqb. destruct (Req_EM_T P 0) as [Z|_]; [lra|].
  cbn [exR pc_expr app length seq Nat.sub mmap]. unfold work_cste. cbn [exR pc_expr nth symbols].
  change (first_use exR 1) with (Ok (0, 0)%nat). change (first_use exR 2) with (Ok (0, 1)%nat). fold exR. cbn [bind fst snd]. rewrite !two_stay. cbn [bind]. rewrite !two_move. cbn [bind]. rewrite E0, E1, E2, E3, Ew.
  cbn [exRP pl_cat1 pl_cat2 pl_cat3 mmap]. change (places exR "x") with [(1, 0)]%nat. unfold acc2. cbn [mfold].
  assert (W1 : work1 exRC exRP [ct_ini exRC; A1; A2] [B0; B1] (["init"; "a"]%string, Some [t]) 1 P (1, 0)%nat = Ok (0, 0)).
  { unfold work1. assert (nsum (move_weights exRC (["init"; "a"]%string, Some [t]) (1, 0)%nat) = 0) as ->.
    { rewrite nsum_rsum. cbn. unfold ct_l, lab. cbn. nR. ring. }
    assert (nltb (n0 : R) 0 = false) as -> by (apply Rltb_false; nR; lra). reflexivity. }
  fold exRP. rewrite W1. cbn [bind fst snd]. nR. rewrite !Rplus_0_r. eexists. unfold wr. fold P.
  replace ((1 + P) * P * t * (1 / P)) with ((1 + P) * t) by (field; lra). replace ((1 + P) * P * 1 * (1 / P)) with (1 + P) by (field; lra). reflexivity.
Qed.
Lemma exR_two : two_labels exRT.
Proof. intros tr z [E|[E|[]]]; injection E as <- <-; eauto. Qed.
Lemma exR_ok : wf_pctmc exR /\ valued exR /\ ~ no_return exRC 0.
Proof.
  assert (Eh : hval exR = Ok exRC) by reflexivity. destruct (hval_realises _ _ Eh) as (_ & _ & En & Sq & Rr). split; [|split].
  - assert (Hx : forall x, In x [1; 0] -> 0 <= x) by (intros x [<-|[<-|[]]]; lra).
    split; [intros r [<-|[<-|[]]]; (split; [reflexivity|intros x [<-|[<-|[]]]; cbn; lia])|]. repeat split; exact Hx.
  - split; [intros p [<-|[]]; exists 3; split; [reflexivity|lra]|]. intros i j r Hi Hj H. rewrite (has_value_fun _ _ _ _ H (Rr i j Hi Hj)). apply mget_nonneg. exact exRC_nn.
  - intros N. specialize (N 0%nat ltac:(cbn; lia)). specialize (fun H => N H eq_refl). unfold vecR, rate, matR in N. cbn in N. lra.
Qed.
(** Without [no_return], the other hypotheses of C112_constants_two_labels_partial do
    not suffice: the time in the first state and the moves are weighted by
    1 + exp (-2 t) instead of 1. *)
Theorem C112_constants_return_refuted : forall maxroot, exists m' ll a, round_PCTMC maxroot KTimedMatrix true 1 exRP (timed_traces exRT) exR = Ok (m', ll) /\
  sortParameters exR [] = Ok exRP /\ wf_pctmc exR /\ valued exR /\ two_labels exRT /\ realises exR exRC /\ only_use exR 2 0 1 /\ nth 2 (pc_expr m') (EConst 0) = EConst a /\
  set_expected (ct_density exRC) (ct_expected_moves exRC 0 1) exRT = 2 /\ set_expected (ct_density exRC) (ct_expected_dwell exRC 0) exRT = 3 /\ a <> 2 / 3.
Proof.
  intros maxroot. destruct (exR_work 1) as (c1 & E1). destruct (exR_work 2) as (c2 & E2).
  assert (Eh : hval exR = Ok exRC) by reflexivity.
  assert (U : only_use exR 2 0 1).
  { split; [cbn; lia|]. split; [intros x []|]. split; [cbn; lia|]. split; [cbn; lia|]. intros i' j' Hi Hj. cbn in Hi, Hj. destruct i' as [|[|]]; try lia; destruct j' as [|[|]]; try lia; cbn; split; try lia; auto. }
  assert (Xm : forall t, 0 < ct_density exRC (["init"; "a"]%string, [t]) /\ ct_expected_moves exRC 0 1 (["init"; "a"]%string, [t]) / ct_density exRC (["init"; "a"]%string, [t]) = 1 /\
    ct_expected_dwell exRC 0 (["init"; "a"]%string, [t]) / ct_density exRC (["init"; "a"]%string, [t]) = t).
  { intros t. pose proof (exp_pos (- (2 * t))). rewrite exR_density, two_moves, two_dwell by (cbn; lia). change (ct_n exRC) with 2%nat. unfold Sum, sumL. cbn [seq map rsum fold_right]. rewrite !exR_jump. unfold is_label, vecR. cbn. split; [assumption|]. split; field; lra. }
  assert (W12 : 0 < wr 2 < wr 1).
  { unfold wr. pose proof (exp_pos (- (2 * 2))). split; [lra|]. assert (exp (- (2 * 2)) < exp (- (2 * 1))) by (apply exp_increasing; lra). lra. }
  unfold round_PCTMC. rewrite Eh. cbn [bind]. unfold run_workers. cbn [timed_traces exRT map mmap fst snd]. rewrite E1. cbn [bind]. rewrite E2. cbn [bind Nat.ltb Nat.leb].
  unfold update_PCTMC, unwrap. cbn [mmap bind map sp_1 sp_2 sp_3 sp_cste exRP pl_cat1 pl_cat2 pl_cat3 psum_all fold_left zipwith combine].
  unfold new_value1, padd. cbn [fst snd exR pc_val]. nR. unfold Reqb at 1. destruct (Req_EM_T (0 + 0) 0) as [_|N]; [|lra]. cbn [dget String.eqb Ascii.eqb Bool.eqb bind mmap msum_all].
  eexists _, _, ((wr 1 + wr 2) / (wr 1 * 1 + wr 2 * 2)). split; [reflexivity|]. split; [reflexivity|]. split; [apply exR_ok|]. split; [apply exR_ok|]. split; [exact exR_two|]. split; [exact (hval_realises _ _ Eh)|]. split; [exact U|].
  split; [|split; [|split]].
  - unfold instantiate. assert (N : wr 1 * 1 + wr 2 * 2 <> 0) by lra. destruct (checkRates _ _); cbn [snd pc_expr exR csum_all fold_left zipwith cadd nth]; unfold new_cste, padd; cbn [fst snd]; nR; unfold Reqb; destruct (Req_EM_T _ 0); try contradiction; reflexivity.
  - unfold set_expected, exRT, sumL. cbn [map rsum fold_right fst snd]. destruct (Xm 1) as (A & B & _). destruct (Xm 2) as (A' & B' & _). rewrite B, B'. destruct (Rlt_dec 0 _); [|contradiction]. destruct (Rlt_dec 0 _); [lra|contradiction].
  - unfold set_expected, exRT, sumL. cbn [map rsum fold_right fst snd]. destruct (Xm 1) as (A & _ & B). destruct (Xm 2) as (A' & _ & B'). rewrite B, B'. destruct (Rlt_dec 0 _); [|contradiction]. destruct (Rlt_dec 0 _); [lra|contradiction].
  - intros Q. assert (K : (wr 1 + wr 2) / (wr 1 * 1 + wr 2 * 2) * (wr 1 * 1 + wr 2 * 2) = 2 / 3 * (wr 1 * 1 + wr 2 * 2)) by (rewrite Q; reflexivity).
    replace ((wr 1 + wr 2) / (wr 1 * 1 + wr 2 * 2) * (wr 1 * 1 + wr 2 * 2)) with (wr 1 + wr 2) in K by (field; lra). lra.
Qed.
Print Assumptions C112_constants_return_refuted.
