(** C112: rounds with update_constant and all parameters fixed, on timed traces of two
    observations. *)
From Coq Require Import String ZArith Bool Reals List Lia Lra Psatz FunctionalExtensionality.
From Verif Require Import Num Py SNum SPath LSum LTools MSet SSet MModels MCtor MLik MBW MPctmc SPctmc LPctmc LCtor LFB LEM SBW SExp LBW LBWSet LBWMC SLik LLik LBWMDP LBWCT LLik2 LBWLoop PBWCT PPctmc MPLearn SPLearn LPLearn LPLearn2 LPLearn3 LPLearn4 PPLearn PPLearn2 PPLearn3 PTight PTight2 PPctmc3 PRace PInit3 LGrad2 PConst PConst3.
Import ListNotations.
Local Open Scope R_scope.

(** The rate of every transition has a parameter or is a number of its own; in this
    case, traces do not return to its source with the same label. *)
Definition own_or_parametric (m : pctmc R) (c : ctmc R) : Prop :=
  forall i j, (i < pc_n m)%nat -> (j < pc_n m)%nat -> let k := nth j (nth i (pc_mat m) []) 0%nat in
    k <> 0%nat -> only_use m k i j /\ no_return c i \/ exists x, occurs x (nth k (pc_expr m) (EConst 0)).

Section Kept.
  Variables (m : pctmc R) (k : nat).
  Hypothesis Hk : (1 <= k < length (pc_expr m))%nat.
  Hypothesis Ho : exists x, occurs x (nth k (pc_expr m) (EConst 0)).
  Definition cnone (cs : list (option (R * R))) : Prop := length cs = (length (pc_expr m) - 1)%nat /\ nth (k - 1) cs None = None.
  Lemma work_none kind h pl tr z st : processWork_PCTMC kind true m h pl tr z = Ok (Some st) -> cnone (sp_cste st).
  Proof.
    unfold processWork_PCTMC. destruct (_ <? _)%nat; [discriminate|]. intros E. apply bind_ok in E. destruct E as ([al be] & _ & E). revert E. destruct (neqb _ _); [discriminate|]. intros E.
    apply bind_ok in E. destruct E as (cs & Ec & E). apply bind_ok in E. destruct E as (s1 & _ & E). apply bind_ok in E. destruct E as (s2 & _ & E). apply bind_ok in E. destruct E as (s3 & _ & E). injection E as <-. cbn [sp_cste].
    apply mmap_forall2 in Ec. pose proof (F2len _ _ _ Ec) as Lc. rewrite seq_length in Lc. split; [lia|].
    pose proof (Forall2_nth _ _ _ 0%nat None Ec (k - 1)%nat ltac:(rewrite seq_length; lia)) as Q. cbv beta in Q. rewrite seq_nth in Q by lia. replace (1 + (k - 1))%nat with k in Q by lia.
    unfold work_cste in Q. destruct Ho as [x Hx]. apply symbols_occurs in Hx. change 0 with (@n0 R RNum) in Hx. destruct (symbols (nth k (pc_expr m) (EConst n0))) as [|y l]; [destruct Hx|]. injection Q as <-. reflexivity.
  Qed.
  Lemma zip_none x y : cnone x -> cnone y -> cnone (zipwith cadd x y).
  Proof.
    unfold cnone. clear Hk Ho. generalize (length (pc_expr m) - 1)%nat as n. intros n [Lx Nx] [Ly Ny]. split; [rewrite zipwith_length; lia|]. clear Ly Ny Lx. revert y Nx. generalize (k - 1)%nat as q.
    induction x as [|a x IH]; intros q y Nx; [destruct q; reflexivity|]. destruct y as [|b y]; [destruct q; reflexivity|]. destruct q as [|q]; cbn in *; [subst a; reflexivity|apply IH; exact Nx].
  Qed.
  Lemma csum_none temp : temp <> [] -> Forall (fun st => cnone (sp_cste st)) temp -> cnone (csum_all (map (@sp_cste R) temp)).
  Proof.
    destruct temp as [|st temp]; [contradiction|]. intros _ F. inversion F as [|? ? F0 F1]; subst. cbn [map csum_all]. clear F. revert F0. generalize (sp_cste st) as acc. induction F1 as [|s l Fs Fl IH]; intros acc F0; cbn [map fold_left]; [exact F0|]. apply IH. apply zip_none; assumption.
  Qed.
  Lemma kept maxroot kind p pl ts m' ll : round_PCTMC maxroot kind true p pl ts m = Ok (m', ll) -> nth k (pc_expr m') (EConst 0) = nth k (pc_expr m) (EConst 0).
  Proof.
    intros E. unfold round_PCTMC in E. apply bind_ok in E. destruct E as (h & Eh & E). apply bind_ok in E. destruct E as (temp & Et & E).
    unfold run_workers in Et. apply bind_ok in Et. destruct Et as (rs & Er & Et). injection Et as <-. unfold update_PCTMC in E. apply bind_ok in E. destruct E as (temp & Eu & E). apply unwrap_filter in Eu.
    assert (F : Forall (fun st => cnone (sp_cste st)) temp).
    { apply Forall_forall. intros st I. apply mmap_forall2 in Eu. destruct (Forall2_In_r _ _ _ _ Eu I) as (o & Io & Eo). destruct o as [st'|]; [injection Eo as ->|discriminate]. apply filter_In in Io. destruct Io as [Io _].
      apply mmap_forall2 in Er. destruct (Forall2_In_r _ _ _ _ Er Io) as (x & _ & Ex). exact (work_none _ _ _ _ _ _ Ex). }
    destruct temp as [|st0 temp0] eqn:Ete; [discriminate|]. rewrite <- Ete in *. assert (NE : temp <> []) by (rewrite Ete; discriminate). clear Ete.
    destruct (csum_none temp NE F) as (Lc & Gc).
    apply bind_ok in E. destruct E as (v1 & _ & E). apply bind_ok in E. destruct E as (v2 & _ & E). apply bind_ok in E. destruct E as (v3 & _ & E). injection E as Em _. rewrite <- Em. clear F Ho.
    destruct (pc_expr m) as [|e0 es] eqn:Ee; [cbn in Hk; lia|]. cbn [length] in *.
    unfold instantiate. destruct (checkRates _ _); cbn [snd pc_expr].
    all: destruct k as [|q]; [lia|]; cbn [nth]; rewrite nth_new_cste by (rewrite ?Lc; lia); replace (S q - 1)%nat with q in Gc by lia; rewrite Gc; reflexivity.
  Qed.
End Kept.

(** With update_constant, a round keeps the shape of the model and every rate with a
    parameter, for all traces. *)
Theorem C112_constants_keep_expressions : forall (maxroot : list R -> res R) kind (p : nat) (pl : plan R) ts (m m' : pctmc R) (ll : R),
  wf_pctmc m -> round_PCTMC maxroot kind true p pl ts m = Ok (m', ll) ->
  pc_mat m' = pc_mat m /\ pc_lab m' = pc_lab m /\ pc_ini m' = pc_ini m /\
  forall i j x, (i < pc_n m)%nat -> (j < pc_n m)%nat -> occurs x (transition m i j) -> transition m' i j = transition m i j.
Proof.
  intros maxroot kind p pl ts m m' ll W E. destruct (round_shape _ _ _ _ _ _ _ _ W E) as (Em & El & Ei & _). repeat split; auto.
  intros i j x Hi Hj O. unfold transition in *. rewrite Em. set (k := nth j (nth i (pc_mat m) []) 0%nat) in *. apply (kept m k) with (2 := ex_intro _ x O) (3 := E).
  destruct W as (W1 & _ & _ & W0 & _). split.
  - destruct k; [rewrite W0 in O; destruct O|lia].
  - apply (W1 (nth i (pc_mat m) [])); [apply nth_In; exact Hi|]. apply nth_In. destruct (W1 (nth i (pc_mat m) [])) as [-> _]; [apply nth_In; exact Hi|exact Hj].
Qed.
Print Assumptions C112_constants_keep_expressions.

Lemma all_fixed (m : pctmc R) pl : sortParameters m (pc_par m) = Ok pl -> pl_cat1 pl = [] /\ pl_cat2 pl = [] /\ pl_cat3 pl = [].
Proof.
  unfold sortParameters. intros E. apply bind_ok in E. destruct E as (a & _ & E).
  replace (filter (fun p => negb (memb String.eqb p (pc_par m))) (pc_par m)) with (@nil string) in E.
  - cbn in E. injection E as <-. auto.
  - symmetry. assert (G : forall l, (forall x, In x l -> In x (pc_par m)) -> filter (fun p => negb (memb String.eqb p (pc_par m))) l = []); [|apply G; auto].
    induction l as [|x l IH]; intros H; [reflexivity|]. cbn [filter]. assert (memb String.eqb x (pc_par m) = true) as ->.
    { unfold memb. apply existsb_exists. exists x. split; [apply H; left; reflexivity|apply String.eqb_refl]. }
    cbn. apply IH. intros y I. apply H. right. exact I.
Qed.
Lemma fixed_values maxroot kind p pl ts (m m' : pctmc R) ll : sortParameters m (pc_par m) = Ok pl -> round_PCTMC maxroot kind true p pl ts m = Ok (m', ll) -> pc_val m' = pc_val m.
Proof.
  intros S E. destruct (all_fixed m pl S) as (C1 & C2 & C3). unfold round_PCTMC in E. apply bind_ok in E. destruct E as (h & Eh & E). apply bind_ok in E. destruct E as (temp & Et & E).
  unfold update_PCTMC in E. apply bind_ok in E. destruct E as (tm & Eu & E). destruct tm as [|st0 temp0]; [discriminate|].
  apply bind_ok in E. destruct E as (v1 & _ & E). apply bind_ok in E. destruct E as (v2 & _ & E). apply bind_ok in E. destruct E as (v3 & _ & E). injection E as Em _. rewrite <- Em. rewrite C1, C2, C3.
  unfold instantiate. destruct (checkRates _ _); reflexivity.
Qed.
Lemma mixed_rate maxroot p pl set (m m' : pctmc R) ll c c' : wf_pctmc m -> valued m -> realises m c -> realises m' c' -> sortParameters m (pc_par m) = Ok pl -> two_labels set -> own_or_parametric m c ->
  round_PCTMC maxroot KTimedMatrix true p pl (timed_traces set) m = Ok (m', ll) -> forall i j, (i < pc_n m)%nat -> (j < pc_n m)%nat ->
  rate c' i j = rate c i j \/
  rate c' i j = if Req_EM_T (set_expected (ct_density c) (ct_expected_dwell c i) set) 0 then rate c i j
                else set_expected (ct_density c) (ct_expected_moves c i j) set / set_expected (ct_density c) (ct_expected_dwell c i) set.
Proof.
  intros W V Rc Rc' Sp T O E i j Hi Hj. destruct (round_shape _ _ _ _ _ _ _ _ W E) as (Em & El & Ei & E0).
  assert (En : pc_n m' = pc_n m) by (unfold pc_n; rewrite Em; reflexivity).
  pose proof Rc as (_ & _ & _ & _ & Hr). pose proof Rc' as (_ & _ & _ & _ & Hr'). specialize (Hr i j Hi Hj). specialize (Hr' i j ltac:(lia) ltac:(lia)).
  unfold has_rate, transition in Hr, Hr'. rewrite Em in Hr'. specialize (O i j Hi Hj). unfold rate. set (k := nth j (nth i (pc_mat m) []) 0%nat) in *.
  assert (Cst : forall val x v, has_value val (EConst x) v -> v = x) by (intros val x v (rho & _ & ->); reflexivity).
  destruct (Nat.eq_dec k 0) as [Z|NZ].
  - left. rewrite Z in Hr, Hr'. destruct W as (_ & _ & _ & W0 & _). rewrite W0 in Hr. rewrite E0 in Hr'. rewrite (Cst _ _ _ Hr), (Cst _ _ _ Hr'). reflexivity.
  - assert (Hk : (1 <= k < length (pc_expr m))%nat).
    { split; [lia|]. destruct W as (W1 & _). apply (W1 (nth i (pc_mat m) [])); [apply nth_In; exact Hi|]. apply nth_In. destruct (W1 (nth i (pc_mat m) [])) as [-> _]; [apply nth_In; exact Hi|exact Hj]. }
    destruct (O NZ) as [[U N]|Ox].
    2:{ left. rewrite (kept m k Hk Ox _ _ _ _ _ _ _ E) in Hr'. apply (has_value_fun (current m) (nth k (pc_expr m) (EConst 0))); [|exact Hr]. apply (has_value_ext (current m')); [|exact Hr'].
        intros x _. unfold current, parameterValue. rewrite (fixed_values _ _ _ _ _ _ _ _ Sp E). reflexivity. }
    right. pose proof (C112_constants_two_labels_partial maxroot p pl set m m' ll c k i j W V Rc T U N E) as K. cbv zeta in K.
    rewrite K in Hr'. destruct (Req_EM_T _ 0) as [Z|_].
    + destruct U as (_ & Nk & _). apply (has_value_fun (current m) (nth k (pc_expr m) (EConst 0))); [|exact Hr]. apply (has_value_ext (current m')); [|exact Hr']. intros x Hx. destruct (Nk x Hx).
    + eapply Cst. exact Hr'.
Qed.
Lemma mixed_gain X D r r' : 0 <= X -> 0 <= D -> 0 <= r -> (0 < X -> 0 < r) -> (r' = r \/ r' = if Req_EM_T D 0 then r else X / D) -> 0 <= X * ln (r' / r) - D * (r' - r).
Proof.
  intros HX HD Hr Hs [->|E].
  - destruct (Rle_lt_or_eq_dec 0 X HX) as [P|<-]; [|lra]. specialize (Hs P). replace (r / r) with 1 by (field; lra). rewrite ln_1. lra.
  - destruct (Req_EM_T D 0) as [->|N].
    + subst r'. destruct (Rle_lt_or_eq_dec 0 X HX) as [P|<-]; [|lra]. specialize (Hs P). replace (r / r) with 1 by (field; lra). rewrite ln_1. lra.
    + assert (P : 0 < D) by lra. destruct (Rle_lt_or_eq_dec 0 X HX) as [PX|<-].
      * specialize (Hs PX). assert (Pr : 0 < r') by (subst r'; apply Rdiv_lt_0_compat; assumption). assert (EX : X = D * r') by (subst r'; field; lra).
        assert (L : ln (r / r') <= r / r' - 1).
        { pose proof (exp_ineq1_le (ln (r / r'))) as Q. rewrite exp_ln in Q by (apply Rdiv_lt_0_compat; assumption). lra. }
        replace (ln (r' / r)) with (- ln (r / r')) by (unfold Rdiv; rewrite !ln_mult, !ln_Rinv by (try apply Rinv_0_lt_compat; assumption); ring).
        assert (X * ln (r / r') <= X * (r / r' - 1)) by (apply Rmult_le_compat_l; lra). assert (X * (r / r' - 1) = D * (r - r')) by (rewrite EX; field; lra). lra.
      * assert (r' = 0) by (subst r'; unfold Rdiv; ring). nra.
Qed.
(** The likelihood does not fall. *)
Theorem C112_constants_fixed_parameters_partial : forall (maxroot : list R -> res R) (p : nat) (pl : plan R) set (m m' : pctmc R) (ll : R) (c c' : ctmc R),
  wf_pctmc m -> valued m -> realises m c -> realises m' c' -> sortParameters m (pc_par m) = Ok pl -> two_labels set -> timed_set set -> pos_times set -> own_or_parametric m c ->
  round_PCTMC maxroot KTimedMatrix true p pl (timed_traces set) m = Ok (m', ll) ->
  set_ll (ct_density c) set <= set_ll (ct_density c') set /\
  (forall tr z, In (tr, z) set -> (0 < ct_density c tr <-> 0 < ct_density c' tr)).
Proof.
  intros maxroot p pl set m m' ll c c' W V Rc Rc' Sp T Ts Tp O E. pose proof (mixed_rate _ _ _ _ _ _ _ _ _ W V Rc Rc' Sp T O E) as Rt.
  destruct (round_shape _ _ _ _ _ _ _ _ W E) as (Em & El & Ei & E0). assert (En : pc_n m' = pc_n m) by (unfold pc_n; rewrite Em; reflexivity).
  assert (Ec : exists h, hval m = Ok h) by (unfold round_PCTMC in E; apply bind_ok in E; destruct E as (h & Eh & _); eauto). destruct Ec as [h Eh].
  destruct (realises_unique m c h Rc (hval_realises m h Eh)) as (M1 & M2 & M3).
  assert (Wc : wf_ctmc c) by (pose proof (hval_wf m h W Eh) as Wh; unfold wf_ctmc, ct_n in *; rewrite M1, M2, M3; exact Wh).
  assert (Nc : nonneg_mat (ct_mat c)) by (rewrite M1; exact (hval_nonneg m h V Eh)).
  pose proof Rc as (La & Ia & Na & _ & _). pose proof Rc' as (La' & Ia' & Na' & Sq' & _).
  assert (Xn : forall s s', (s < ct_n c)%nat -> (s' < ct_n c)%nat -> 0 <= set_expected (ct_density c) (ct_expected_moves c s s') set) by (intros; apply em_X_nonneg; auto).
  assert (Dn : forall s, (s < ct_n c)%nat -> 0 <= set_expected (ct_density c) (ct_expected_dwell c s) set) by (intros; apply em_D_nonneg; auto).
  assert (Xs : forall s s', (s < ct_n c)%nat -> (s' < ct_n c)%nat -> 0 < set_expected (ct_density c) (ct_expected_moves c s s') set -> 0 < rate c s s') by (intros s s' H H'; apply (em_X_supp c set); auto).
  assert (Rn : forall s s', 0 <= rate c s s') by (intros; apply mget_nonneg; exact Nc).
  assert (Rn' : forall s s', (s < ct_n c)%nat -> (s' < ct_n c)%nat -> 0 <= rate c' s s').
  { intros s s' H H'. destruct (Rt s s' ltac:(lia) ltac:(lia)) as [-> | ->]; [apply Rn|]. destruct (Req_EM_T _ 0) as [_|N]; [apply Rn|]. specialize (Dn s H). apply Rmult_le_pos; [apply Xn; assumption|]. apply Rlt_le, Rinv_0_lt_compat. lra. }
  apply ct_em_mono; auto.
  - split; [change (ct_n c' = ct_n c); congruence|]. intros r I. rewrite Na, <- En. apply Sq'. exact I.
  - intros r I x J. apply (In_nth _ _ []) in I. destruct I as [i [Hi <-]]. apply (In_nth _ _ 0) in J. destruct J as [j [Hj <-]]. unfold ct_n in Na'. assert (L : length (nth i (ct_mat c') []) = pc_n m') by (apply Sq', nth_In; lia). apply (Rn' i j); lia.
  - congruence.
  - congruence.
  - intros s s' H H' Z. destruct (Rt s s' ltac:(lia) ltac:(lia)) as [-> | ->]; [exact Z|]. destruct (Req_EM_T _ 0); [exact Z|].
    specialize (Xn s s' H H'). specialize (Xs s s' H H'). assert (set_expected (ct_density c) (ct_expected_moves c s s') set = 0) as -> by (destruct (Rle_lt_or_eq_dec 0 _ Xn) as [P|P]; [specialize (Xs P); lra|auto]). unfold Rdiv. ring.
  - intros s s' H H' P. specialize (Xs s s' H H' P). destruct (Rt s s' ltac:(lia) ltac:(lia)) as [-> | ->]; [exact Xs|]. destruct (Req_EM_T _ 0) as [_|N]; [exact Xs|]. specialize (Dn s H). apply Rdiv_lt_0_compat; lra.
  - apply Sum_nonneg. intros s H. apply Sum_nonneg. intros s' H'. apply mixed_gain; auto. apply Rt; lia.
Qed.
Print Assumptions C112_constants_fixed_parameters_partial.


(** ** A model with a number and a fixed parameter *)
Definition exF (v : R) : pctmc R := mkPC [[0; 1]; [2; 0]]%nat ["init"; "a"]%string [EConst 0; EConst v; EVar "x"] [("x"%string, 3)] [[(1, 0)]]%Z ["x"%string] [1; 0] "m".
Definition exFP : plan R := mkPlan [[]] [] [] [] [].
Lemma exF_hval v : hval (exF v) = Ok (exNC v).
Proof. reflexivity. Qed.
Lemma exF_sort : sortParameters (exF 5) ["x"%string] = Ok exFP.
Proof. cbn. reflexivity. Qed.
Lemma exF_work : processWork_PCTMC KTimedMatrix true (exF 5) (exNC 5) exFP (["init"; "a"]%string, Some [1]) 1 =
  Ok (Some (mkStatPC [Some (1, 1); None] [] [] [] (5 * exp (- (5 * 1))) 1)).
Proof.
  unfold processWork_PCTMC. cbn [fst length Nat.ltb Nat.leb]. assert (Nn : nonneg_mat (ct_mat (exNC 5))) by (apply exNC_nn; lra).
  destruct (two_fb (exNC 5) (exNC_wf 5) Nn "init"%string "a"%string 1) as (A1 & A2 & B0 & B1 & Ef & V1 & V2 & V3). rewrite Ef. cbn [bind].
  rewrite (C112_matrix_density (exNC 5) ["init"; "a"]%string [1] _ _ (exNC_wf 5) Nn eq_refl Ef), exN_density. clear Ef. pose proof (exp_pos (- (5 * 1))) as Xp.
  pose proof (V1 0%nat ltac:(cbn; lia)) as Va. pose proof (V2 1%nat ltac:(cbn; lia)) as Vb. pose proof (V3 0%nat ltac:(cbn; lia)) as Vc. pose proof (V3 1%nat ltac:(cbn; lia)) as Vd.
  change (ct_n (exNC 5)) with 2%nat in *. unfold Sum, sumL in Va, Vc, Vd. cbn [seq map rsum fold_right] in Va, Vc, Vd. rewrite !ct_w_eq in Va. rewrite !ct_w_eq in Vc. rewrite !ct_w_eq in Vd.
  rewrite exN_jump in Va. rewrite (exN_jump 5 1 0), (exN_jump 5 1 1) in Vc. set (P := exp (- (5 * 1))) in *. unfold is_label in Va, Vb, Vc, Vd. cbn -[jump_density] in Va, Vb, Vc, Vd.
  assert (E1 : vget A1 0 = 0) by (rewrite Va; unfold vget; cbn -[jump_density]; nR; ring). assert (E2 : vget B0 0 = 5 * P) by (rewrite Vc; ring).
  assert (E3 : vget B1 1 = 1) by exact Vb. assert (E4 : vget B0 1 = 0) by (rewrite Vd; ring).
  assert (Ew : ct_w (exNC 5) ("init"%string, 1) 0 1 = 5 * P) by (rewrite ct_w_eq, exN_jump; unfold is_label; cbn; fold P; ring).
  assert (Ex : ct_w (exNC 5) ("init"%string, 1) 1 0 = 0) by (rewrite ct_w_eq; unfold is_label; cbn -[jump_density]; ring).
  nR. unfold Reqb. destruct (Req_EM_T (5 * P) 0) as [Z|_]; [lra|].
  cbn [exF pc_expr app length seq Nat.sub mmap]. unfold work_cste. cbn [exF pc_expr nth symbols].
  change (first_use (exF 5) 1) with (Ok (0, 1)%nat). fold (exF 5). cbn [bind fst snd]. rewrite !two_stay. cbn [bind]. rewrite !two_move. cbn [bind].
  change (vget (ct_ini (exNC 5)) 0) with 1. rewrite E1, E2, E3, Ew. cbn [exFP pl_cat1 pl_cat2 pl_cat3 mmap bind]. nR.
  repeat f_equal; field; lra.
Qed.
Lemma exF_ok : wf_pctmc (exF 5) /\ valued (exF 5) /\ own_or_parametric (exF 5) (exNC 5).
Proof.
  destruct (hval_realises _ _ (exF_hval 5)) as (_ & _ & En & Sq & Rr). split; [|split].
  - assert (Hx : forall x, In x [1; 0] -> 0 <= x) by (intros x [<-|[<-|[]]]; lra).
    split; [intros r [<-|[<-|[]]]; (split; [reflexivity|intros x [<-|[<-|[]]]; cbn; lia])|]. repeat split; exact Hx.
  - split; [intros p [<-|[]]; exists 3; split; [reflexivity|lra]|]. intros i j r Hi Hj H. rewrite (has_value_fun _ _ _ _ H (Rr i j Hi Hj)). apply mget_nonneg. apply exNC_nn. lra.
  - intros i j Hi Hj. cbv zeta. intros N. cbn in Hi, Hj. destruct i as [|[|]]; try lia; destruct j as [|[|]]; try lia; cbn in N; try lia; [left|right; exists "x"%string; reflexivity]. split.
    + split; [cbn; lia|]. split; [intros x []|]. split; [cbn; lia|]. split; [cbn; lia|]. intros i' j' Hi' Hj'. cbn in Hi', Hj'. destruct i' as [|[|]]; try lia; destruct j' as [|[|]]; try lia; cbn; split; try lia; auto.
    + intros s Hs Hn Hl. cbn in Hs. destruct s as [|[|]]; try lia; [reflexivity|discriminate Hl].
Qed.
Example C112_constants_fixed_parameters_instance : forall maxroot, exists ll, round_PCTMC maxroot KTimedMatrix true 1 exFP (timed_traces exNT) (exF 5) = Ok (exF 1, ll) /\
  sortParameters (exF 5) ["x"%string] = Ok exFP /\ wf_pctmc (exF 5) /\ valued (exF 5) /\ realises (exF 5) (exNC 5) /\ realises (exF 1) (exNC 1) /\ two_labels exNT /\ timed_set exNT /\ pos_times exNT /\ own_or_parametric (exF 5) (exNC 5).
Proof.
  intros maxroot. destruct exF_ok as (W & V & O). assert (I : forall x, In x exNT -> x = ((["init"; "a"]%string, [1]), 1%Z)) by (intros x [<-|[]]; reflexivity).
  eexists. split; [|split; [reflexivity|split; [exact W|split; [exact V|split; [exact (hval_realises _ _ (exF_hval 5))|split; [exact (hval_realises _ _ (exF_hval 1))|split; [|split; [|split; [|exact O]]]]]]]]].
  - unfold round_PCTMC. rewrite exF_hval. cbn [bind]. unfold run_workers. cbn [timed_traces exNT map mmap fst snd]. rewrite exF_work. cbn [bind Nat.ltb Nat.leb].
    unfold update_PCTMC, unwrap. cbn [mmap bind map sp_1 sp_2 sp_3 sp_cste exFP pl_cat1 pl_cat2 pl_cat3 psum_all msum_all csum_all fold_left combine exF pc_expr zipwith].
    unfold new_cste. nR. unfold Reqb. destruct (Req_EM_T 1 0) as [Z|_]; [lra|]. replace (1 / 1) with 1 by field.
    unfold instantiate. destruct (checkRates _ _); reflexivity.
  - intros tr z H. apply I in H. injection H as -> ->. eauto.
  - intros tr z H. apply I in H. injection H as -> ->. split; [reflexivity|]. intros d [<-|[]]. lra.
  - intros st H. apply I in H. subst st. cbn. lia.
Qed.
Example C112_constants_keep_expressions_instance : forall maxroot, exists m' ll, round_PCTMC maxroot KTimedMatrix true 1 exFP (timed_traces exNT) (exF 5) = Ok (m', ll) /\
  wf_pctmc (exF 5) /\ occurs "x" (transition (exF 5) 1 0) /\ transition m' 1 0 = EVar "x".
Proof. intros maxroot. destruct (C112_constants_fixed_parameters_instance maxroot) as (ll & E & _ & W & _). exists (exF 1), ll. split; [exact E|]. split; [exact W|]. split; reflexivity. Qed.
