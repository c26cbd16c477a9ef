(** Learning of parametric CTMCs from untimed traces: the likelihood of two Markov
    chains with the same frame, and the rounds. *)
From Coq Require Import String ZArith Bool Reals List Lia Lra Psatz FunctionalExtensionality.
From Verif Require Import Num Py SNum SPath LSum MSet MModels MCtor MLik MBW MPctmc SPctmc LPctmc LCtor LFB LEM SBW SExp LBW LBWSet LBWMC SLik LLik LEMGen LBWMDP LBWCT LBWPath LLik2 PLik PBWMC PBWCT PBWCTU PPctmc LMM MPLearn SPLearn LPLearn LPLearn2 LPLearn3 LPLearn4 LPLearn5.
Import ListNotations.
Local Open Scope R_scope.

Section MCEM.
  Variables (m m' : mc R) (set : list (list string * Z)).
  Notation n := (mc_n m).
  Notation a0 := (vget (mc_ini m)).
  Notation Wm := (mc_ws m).
  Notation W' := (mc_ws m').
  Notation fo := (fun (_ : list string) (_ : nat) => 1).
  Notation P1 := (Pof n a0 Wm fo).
  Notation mcP := (mcP m).
  Notation mcNUM := (mcNUM m set).
  Hypothesis Hwf : wf_mc m.
  Hypothesis Hnn : nonneg_mat (mc_mat m).
  Hypothesis Hini : nonneg (mc_ini m).
  Hypothesis HT : pos_times set.
  Hypothesis Hlab : mc_lab m' = mc_lab m.
  Hypothesis Hsq' : square n (mc_mat m').
  Hypothesis Hnn' : nonneg_mat (mc_mat m').
  Hypothesis Hz : forall s s', (s < n)%nat -> (s' < n)%nat -> mget (mc_mat m) s s' = 0 -> mget (mc_mat m') s s' = 0.
  Hypothesis Hsp : forall s s', (s < n)%nat -> (s' < n)%nat -> 0 < mcNUM s s' -> 0 < mget (mc_mat m') s s'.
  Hypothesis Hg : 0 <= Sum n (fun s => Sum n (fun s' => mcNUM s s' * ln (mget (mc_mat m') s s' / mget (mc_mat m) s s'))).

  Lemma e_tau_pos s s' o : 0 < mc_tau m s s' o -> mc_tau m s s' o = mget (mc_mat m) s s' /\ mc_tau m' s s' o = mget (mc_mat m') s s'.
  Proof. unfold mc_tau. rewrite Hlab. destruct (negb _); nR; [lra|auto]. Qed.

  Lemma e_supp tr t : In (tr, t) set -> 0 < P1 tr -> supp n a0 (Wm tr) (W' tr) (fun _ => 1).
  Proof.
    intros I P. apply supp_xi; [unfold mc_ws; rewrite !map_length; reflexivity|].
    intros k s s' Hk Q1 Q2 Px.
    assert (PN : 0 < mcNUM s s').
    { apply (XI_ones_pos n set a0 Wm fo HT) with (x := tr) (t := t) (k := k); auto.
      - intros; apply mc_okw; assumption.
      - intros; apply okf1.
      - apply mc_oka; assumption. }
    assert (Pk : 0 < nth k (Wm tr) (fun _ _ => 0) s s').
    { apply (xi_nth_pos n a0 _ (fun _ => 1)); auto using mc_okw, mc_oka, okf1. }
    unfold mc_ws in Hk, Pk |- *. rewrite map_length in Hk.
    rewrite nth_indep with (d' := (fun o ss s => mc_tau m ss s o) EmptyString) in Pk by (rewrite map_length; exact Hk).
    rewrite (map_nth (fun o ss s => mc_tau m ss s o)) in Pk.
    rewrite nth_indep with (d' := (fun o ss s => mc_tau m' ss s o) EmptyString) by (rewrite map_length; exact Hk).
    rewrite (map_nth (fun o ss s => mc_tau m' ss s o)).
    destruct (e_tau_pos _ _ _ Pk) as [_ ->]. apply Hsp; assumption.
  Qed.

  Lemma e_ws_F2 tr : Forall2 (fun w w' : nat -> nat -> R => forall s s', (s < n)%nat -> (s' < n)%nat -> w s s' = 0 -> w' s s' = 0) (Wm tr) (W' tr).
  Proof.
    unfold mc_ws. induction tr as [|o tr IH]; cbn; constructor; auto.
    intros s s' Q1 Q2 E. unfold mc_tau in *. rewrite Hlab. destruct (negb _); [reflexivity|]. apply Hz; assumption.
  Qed.
  Lemma e_zero_prob tr : mcP tr = 0 -> tot n a0 (W' tr) (fun _ => 1) = 0.
  Proof. intros Z. apply (tot_zero n a0 a0 (Wm tr)); auto using mc_okw, okf1, mc_oka, e_ws_F2. Qed.

  Lemma e_okw' tr : Forall (okw n) (W' tr).
  Proof.
    apply Forall_forall. intros w I. unfold mc_ws in I. apply in_map_iff in I. destruct I as [o [<- _]].
    intros s s' Hs Hs'. unfold mc_tau. destruct (negb _); nR; [lra|]. apply mget_nonneg; exact Hnn'.
  Qed.

  Lemma e_em_mono : set_ll mcP set <= set_ll (fun tr => tot n a0 (W' tr) (fun _ => 1)) set /\
    (forall tr t, In (tr, t) set -> (0 < mcP tr <-> 0 < tot n a0 (W' tr) (fun _ => 1))).
  Proof.
    assert (HI : forall s, (s < n)%nat -> 0 < IN n set a0 Wm fo s -> 0 < a0 s).
    { intros s Hs P. pose proof (mc_oka m Hini s Hs). destruct (Req_dec (a0 s) 0) as [E|E]; [exfalso|lra].
      unfold IN in P. rewrite (psum_ext n set a0 Wm fo _ (fun _ _ => 0 * 0)) in P; [rewrite psum_scal_r in P; lra|].
      intros. rewrite E. ring. }
    assert (Pp : forall tr t, In (tr, t) set -> 0 < P1 tr -> 0 < Pof' n fo a0 W' tr).
    { intros tr t I P. apply (Pof'_pos n set a0 Wm fo HT) with (t := t); auto; intros; eauto using mc_okw, e_okw', okf1, mc_oka, e_supp. }
    split.
    - change (fun tr => tot n a0 (W' tr) (fun _ => 1)) with (Pof' n fo a0 W').
      change mcP with P1.
      rewrite (set_ll_improve n set a0 Wm fo HT) with (a' := a0) (W' := W'); intros; eauto using mc_okw, e_okw', okf1, mc_oka, e_supp, e_zero_prob.
      enough (0 <= psum n set a0 Wm fo (fun x t => IZR t * (ln (Pof' n fo a0 W' x) - ln (Pof n a0 Wm fo x)))) by lra.
      eapply Rle_trans; [|apply (em_set n set a0 Wm fo HT); intros; eauto using mc_okw, e_okw', okf1, mc_oka, e_supp].
      apply Rplus_le_le_0_compat.
      + apply Req_le. symmetry. apply Sum_zero_ext. intros s Hs.
        destruct (Req_dec (a0 s) 0) as [E|E].
        * enough (IN n set a0 Wm fo s = 0) as -> by ring.
          unfold IN. rewrite (psum_ext n set a0 Wm fo _ (fun _ _ => 0 * 0)); [rewrite psum_scal_r; ring|]. intros. rewrite E. ring.
        * replace (a0 s / a0 s) with 1 by (field; exact E). rewrite ln_1. ring.
      + apply Rle_trans with (1 := Hg). apply Req_le. apply Sum_ext. intros s Q1. apply Sum_ext. intros s' Q2.
          unfold LBWMC.mcNUM, XI. rewrite <- psum_scal_r. apply psum_ext. intros tr t I P.
          replace (wsum (xi n a0 (Wm tr) (fun _ => 1) s s') (lrs (Wm tr) (W' tr) s s'))
            with (wsum (xi n a0 (Wm tr) (fun _ => 1) s s') (ones1 Wm tr) * ln (mget (mc_mat m') s s' / mget (mc_mat m) s s')); [ring|].
          unfold ones1. rewrite wsum_ones1 by apply xi_length.
          rewrite <- (wsum_const (xi n a0 (Wm tr) (fun _ => 1) s s') (repeat (ln (mget (mc_mat m') s s' / mget (mc_mat m) s s')) (length (Wm tr)))).
          2:{ intros y Iy. apply repeat_spec in Iy. exact Iy. }
          2:{ rewrite xi_length, repeat_length. lia. }
          clear - Q1 Q2 Hlab Hnn Hini. generalize a0 (mc_oka m Hini). generalize tr. induction tr0 as [|o l IH]; intros b Hb; [reflexivity|].
          cbn [mc_ws map length repeat xi lrs zipwith]. rewrite !wsum_cons. f_equal.
          -- destruct (negb (o =? lab (mc_lab m) s)%string) eqn:E.
             ++ assert (mc_tau m s s' o = 0) as -> by (unfold mc_tau; rewrite E; reflexivity). ring.
             ++ unfold mc_tau. rewrite Hlab, E. reflexivity.
          -- apply IH. apply step_nonneg; [exact Hb|]. intros i j Hi Hj. unfold mc_tau. destruct (negb _); nR; [lra|]. apply mget_nonneg; exact Hnn.
    - intros tr t I. split; [intros P; exact (Pp tr t I P)|].
      intros P. destruct (Req_dec (mcP tr) 0) as [E|E]; [rewrite (e_zero_prob tr E) in P; lra|]. pose proof (mcP_nonneg m Hnn Hini tr). lra.
  Qed.
End MCEM.

Definition uview (tr : list string) : ptrace R := (tr, None).
Section Untimed.
  Variables (m : pctmc R) (fixed : list string) (pl : plan R) (h : ctmc R) (set : list (list string * Z)).
  Hypothesis Hh : hval m = Ok h.
  Hypothesis Hwf : wf_pctmc m.
  Hypothesis Hidx : indexed m.
  Hypothesis Hlearn : learnable fixed m.
  Hypothesis Hval : valued m.
  Hypothesis Hplan : plan_ok fixed m pl.
  Hypothesis HT : pos_times set.
  Notation n := (ct_n h).
  Notation jc := (jump_chain h).
  Notation W := (mc_ws jc).
  Notation fo := (fun (_ : list string) (_ : nat) => 1).
  Notation a0 := (vget (ct_ini h)).
  Notation rt y := (mget (ct_mat h) (fst y) (snd y)).
  Lemma um_n : ct_n h = pc_n m. Proof. apply hval_n. exact Hh. Qed.
  Lemma um_wf : wf_ctmc h. Proof. apply (hval_wf m); assumption. Qed.
  Lemma um_nn : nonneg_mat (ct_mat h). Proof. apply (hval_nonneg m); assumption. Qed.
  Definition ual tr := bw_alphas n (ct_ini h) (W tr).
  Definition ube tr := bw_betas n (vones n) (W tr).
  Definition unx tr (y : nat * nat) := rsum (xi n a0 (W tr) (fun _ => 1) (fst y) (snd y)).
  Definition ugx tr s := rsum (gam n a0 (W tr) (fun _ => 1) s).

  Lemma um_fb tr : forward_backward KGeneric h (uview tr) = Ok (ual tr, ube tr).
  Proof. unfold forward_backward, uview. rewrite (u_ws h um_wf). reflexivity. Qed.
  Lemma um_P tr : proba_of (ual tr) = Pof n a0 W fo tr.
  Proof. unfold ual. rewrite (proba_model n) by apply (ct_ini_len h um_wf). reflexivity. Qed.
  Lemma um_weights tr y : move_weights h (uview tr) y = map (fun w => w (fst y) (snd y)) (W tr).
  Proof. destruct y as [s s']. unfold move_weights, uview. cbn [fst snd]. rewrite <- (u_ws h um_wf), map_map. reflexivity. Qed.
  Lemma um_moves tr y k : inrange m y -> moves (ual tr) (ube tr) (move_weights h (uview tr) y) k y = Ok (unx tr y * k).
  Proof.
    intros [R1 R2]. rewrite <- um_n in R1, R2. unfold moves. rewrite um_weights. unfold ual, ube.
    rewrite bmul_eq by (rewrite col_init_len, map_length; reflexivity). cbn [bind]. rewrite bmul_eq by (rewrite zipwith_length, col_init_len, map_length, (col_tail_blen h); lia). cbn [bind].
    pose proof (xi_model n (ct_ini h) (vones n) (W tr) (fst y) (snd y) (ct_ini_len h um_wf) (vones_length n) R1 R2) as G.
    rewrite (xi_ext_f n a0 (W tr) _ (fun _ => 1)) in G by (auto; intros; apply vget_vones; assumption). revert G. nR. intros G.
    rewrite G. unfold unx. toR. rewrite !rsum_sumL, sumL_map, sumL_scal_r. reflexivity.
  Qed.
  Lemma um_stay tr s k : (s < pc_n m)%nat -> stay (ual tr) (ube tr) (snd (uview tr)) k s = Ok (ugx tr s * k).
  Proof.
    intros Hs. rewrite <- um_n in Hs. unfold stay, ual, ube. rewrite bmul_eq by (rewrite col_init_len, (col_init_blen h); reflexivity). cbn [bind uview snd].
    pose proof (gam_model n (ct_ini h) (vones n) (W tr) s (ct_ini_len h um_wf) (vones_length n) Hs) as G.
    rewrite (gam_ext_f n a0 (W tr) _ (fun _ => 1)) in G by (auto; intros; apply vget_vones; assumption). revert G. nR. intros G.
    rewrite G. unfold ugx. toR. rewrite !rsum_sumL, sumL_map, sumL_scal_r. reflexivity.
  Qed.
  Lemma um_w tr w s s' : In w (W tr) -> exists o, In o tr /\ w s s' = is_label (ct_lab h) o s * (mget (ct_mat h) s s' / exit_rate h s).
  Proof.
    intros I. unfold mc_ws in I. apply in_map_iff in I. destruct I as (o & <- & I). exists o. split; [exact I|].
    rewrite <- (ct_tau_jc h um_wf). unfold ct_tau, ct_l. change (@ct_e R RNum h s) with (exit_rate h s). unfold is_label, lab. destruct (String.eqb_spec (nth s (ct_lab h) EmptyString) o); cbn [negb]; nR.
    - unfold Rdiv. ring.
    - unfold Rdiv. ring.
  Qed.
  Lemma um_jump_nonneg s s' : 0 <= mget (ct_mat h) s s' / exit_rate h s.
  Proof. apply (jump_nonneg h s s' um_nn). Qed.
  Lemma um_okw tr : Forall (okw n) (W tr).
  Proof. rewrite <- (jc_n h). apply mc_okw. apply jc_nonneg. exact um_nn. Qed.
  Lemma um_oka : okf n a0. Proof. apply (t_oka h um_wf). Qed.
  Lemma um_okf : okf n (fun _ => 1). Proof. intros s Hs. lra. Qed.
  Lemma um_w_nonneg tr w s s' : In w (W tr) -> 0 <= w s s'.
  Proof.
    intros I. destruct (um_w tr w s s' I) as (ot & _ & ->). pose proof (um_jump_nonneg s s').
    destruct (LBWMDP.is_label_01 (ct_lab h) ot s) as [-> | ->]; lra.
  Qed.
  Lemma um_gp tr y : inrange m y -> 0 < nsum (move_weights h (uview tr) y) -> 0 < rt y.
  Proof.
    intros Rg Q. rewrite um_weights in Q. apply nsum_pos_ex in Q. destruct Q as (x & I & NZ). apply in_map_iff in I. destruct I as (w & <- & I).
    destruct (um_w tr w (fst y) (snd y) I) as (ot & _ & E). rewrite E in NZ. pose proof (mget_nonneg (ct_mat h) (fst y) (snd y) um_nn) as G.
    destruct (Req_dec (rt y) 0) as [Z|Z]; [|lra]. exfalso. apply NZ. rewrite Z. unfold Rdiv. ring.
  Qed.
  Lemma um_exit s s' : (s < n)%nat -> (s' < n)%nat -> mget (ct_mat h) s s' <> 0 -> 0 < exit_rate h s.
  Proof.
    intros Hs Hs' NZ. pose proof (mget_nonneg (ct_mat h) s s' um_nn). unfold exit_rate. rewrite (row_sum_Sum (ct_mat h) n s) by (auto; apply um_wf).
    apply Rlt_le_trans with (mget (ct_mat h) s s'); [lra|]. unfold Sum. apply (sumL_ge_term (seq 0 n) (mget (ct_mat h) s) s').
    - apply in_seq. lia.
    - intros; apply mget_nonneg; exact um_nn.
  Qed.
  Lemma um_gn tr y : inrange m y -> ~ 0 < nsum (move_weights h (uview tr) y) -> unx tr y = 0 /\ ugx tr (fst y) / exit_rate h (fst y) * rt y = 0.
  Proof.
    intros [R1 R2] Q. rewrite <- um_n in R1, R2. rewrite um_weights in Q.
    assert (Z : forall w, In w (W tr) -> w (fst y) (snd y) = 0).
    { intros w I. apply (nsum_zero_all _ (fun x I => ltac:(apply in_map_iff in I; destruct I as (w0 & <- & I); apply (um_w_nonneg tr w0 (fst y) (snd y) I))) Q). apply in_map_iff. exists w. auto. }
    split; [apply xi_zero; exact Z|]. destruct (Req_dec (rt y) 0) as [Zr|Zr]; [rewrite Zr; ring|].
    pose proof (um_exit _ _ R1 R2 Zr) as Pe.
    replace (ugx tr (fst y)) with 0; [unfold Rdiv; ring|]. symmetry. unfold ugx. rewrite <- (wsum_ones1 _ (length (W tr))) by apply gam_length. apply wsum_zero. intros k. apply gam_zero. intros w I s' Hs'.
    specialize (Z w I). unfold mc_ws in I. apply in_map_iff in I. destruct I as (o & <- & I). rewrite <- (ct_tau_jc h um_wf) in *. unfold ct_tau, ct_l in *.
    revert Z. destruct (negb _); nR; intros Z; [unfold Rdiv; ring|]. exfalso. apply Rmult_integral in Z. destruct Z as [Z|Z]; [contradiction|].
    assert (ct_e h (fst y) <> 0) by (change (ct_e h (fst y)) with (exit_rate h (fst y)); lra). apply Rinv_neq_0_compat in H. contradiction.
  Qed.
  Lemma um_nx tr y : inrange m y -> 0 <= unx tr y.
  Proof.
    intros [R1 R2]. rewrite <- um_n in R1, R2. unfold unx. rewrite rsum_sumL. apply sumL_nonneg. intros v Iv.
    apply (xi_nonneg n a0 (W tr) (fun _ => 1) (fst y) (snd y)); auto using um_oka, um_okw, um_okf.
  Qed.
  Lemma um_dx tr s : (s < pc_n m)%nat -> 0 <= ugx tr s / exit_rate h s.
  Proof.
    intros Hs. rewrite <- um_n in Hs. assert (0 <= ugx tr s).
    { unfold ugx. rewrite rsum_sumL. apply sumL_nonneg. intros v Iv. apply (gam_nonneg n a0 (W tr) (fun _ => 1) s); auto using um_oka, um_okw, um_okf. }
    destruct (exit_nonneg h s um_nn) as [P|P]; [apply Rdiv_le_0_compat; assumption|]. rewrite <- P. unfold Rdiv. rewrite Rinv_0. lra.
  Qed.

  Notation N := (fun y => set_expected (mc_trace_prob_move jc) (mc_expected_moves jc (fst y) (snd y)) set).
  Notation D := (fun s => set_expected (mc_trace_prob_move jc) (mc_expected_visits jc s) set / exit_rate h s).
  Lemma um_N y : inrange m y -> LPLearn3.N set m a0 W fo unx y = N y.
  Proof.
    intros [R1 R2]. rewrite <- um_n in R1, R2. cbv beta. rewrite <- (u_XI h) by assumption. unfold LPLearn3.N, cXI, XI. rewrite <- um_n. apply psum_ext. intros x t _ _.
    unfold unx, ones1. rewrite wsum_ones1 by apply xi_length. reflexivity.
  Qed.
  Lemma um_D s : (s < pc_n m)%nat -> LPLearn3.D set uview m h a0 W fo ugx s = D s.
  Proof.
    intros R1. rewrite <- um_n in R1. cbv beta. rewrite <- (u_DEN h) by assumption. unfold LPLearn3.D, cDEN, GA. rewrite <- um_n. unfold Rdiv. rewrite <- psum_scal_r. apply psum_ext. intros x t _ _.
    unfold dx, ksc, uview. cbn [snd]. unfold ugx, ones1. rewrite wsum_ones1 by apply gam_length. change (ct_e h s) with (exit_rate h s). unfold Rdiv. ring.
  Qed.

  Lemma untimed_round maxroot p m' ll : solver maxroot ->
    round_PCTMC maxroot KGeneric false p pl (map (fun st => (uview (fst st), snd st)) set) m = Ok (m', ll) ->
    same_shape m m' /\ ll = set_ll (mc_trace_prob_move jc) set /\
    (forall q, ~ In q (free_params fixed m) -> current m' q = current m q) /\
    exists z : string -> R, forall q, In q (free_params fixed m) -> 0 <= z q /\ current m' q = Some (total (pc_val m) q * z q) /\
      (z q = 1 /\ sumL (list_prod (seq 0 (pc_n m)) (seq 0 (pc_n m))) (fun y => INR (adeg m fixed q y) * (D (fst y) * rt y)) = 0 \/
       sumL (list_prod (seq 0 (pc_n m)) (seq 0 (pc_n m))) (fun y => INR (adeg m fixed q y) * (D (fst y) * rt y * z q ^ tdeg m fixed y)) =
                  sumL (list_prod (seq 0 (pc_n m)) (seq 0 (pc_n m))) (fun y => INR (adeg m fixed q y) * N y)).
  Proof.
    intros Hs Er. pose proof Er as Er2. unfold round_PCTMC in Er2. rewrite Hh in Er2. cbn [bind] in Er2. apply bind_ok in Er2. destruct Er2 as (temp & Et & _).
    pose proof (workers_len uview _ _ _ _ _ _ set temp Et) as Hl.
    destruct (round_spec set uview m fixed pl KGeneric h Hh Hwf Hidx Hlearn Hval Hplan a0 W fo ual ube unx ugx) with (maxroot := maxroot) (p := p) (m' := m') (ll := ll) as (A & B & C & E & z & F); auto.
    - intros x t I. apply um_fb.
    - intros x t I. rewrite <- um_n. apply um_P.
    - intros x t I. rewrite <- um_n. apply (u_nonneg h um_wf um_nn).
    - intros x t I. apply Rlt_le. apply IZR_lt. apply (HT (x, t) I).
    - intros x t y k I Rg. apply um_moves; eauto.
    - intros x t s k I Rg. apply um_stay; eauto.
    - intros x t y I Rg. apply um_gp; eauto.
    - intros x t y I Rg. apply um_gn; eauto.
    - intros x t y I Rg. apply um_nx; assumption.
    - intros x t s I Rg. apply um_dx; assumption.
    - split; [exact A|]. split; [rewrite B; apply set_ll_ext; intros tr t I; rewrite <- um_n; apply u_P|]. split; [exact E|].
      exists z. intros q I. destruct (F q I) as (F1 & F2 & F3). split; [exact F1|]. split; [exact F2|]. destruct F3 as [[F3 F4]|F3]; [left; split; [exact F3|]|right].
      { rewrite <- F4. apply sumL_ext. intros y Iy. apply pairs_In in Iy. rewrite um_D by apply Iy. reflexivity. }
      unfold eqn in F3.
      rewrite (sumL_ext _ (fun y => INR (adeg m fixed q y) * N y) (fun y => INR (adeg m fixed q y) * LPLearn3.N set m a0 W fo unx y)).
      2:{ intros y Iy. apply pairs_In in Iy. rewrite um_N by exact Iy. reflexivity. }
      rewrite <- F3. apply sumL_ext. intros y Iy. apply pairs_In in Iy. rewrite um_D by apply Iy. reflexivity.
  Qed.
  Lemma untimed_round_ok maxroot p : pl_cat3 pl = [] -> (forall tr t, In (tr, t) set -> (2 <= length tr)%nat) ->
    (exists tr t, In (tr, t) set /\ 0 < mc_trace_prob_move jc tr) -> ((1 < p)%nat \/ forall tr t, In (tr, t) set -> 0 < mc_trace_prob_move jc tr) ->
    exists m' ll, round_PCTMC maxroot KGeneric false p pl (map (fun st => (uview (fst st), snd st)) set) m = Ok (m', ll).
  Proof.
    intros C3 Hl Hex Hp.
    assert (HP : forall x, Pof (pc_n m) a0 W fo x = mc_trace_prob_move jc x) by (intros x; rewrite <- um_n; apply u_P).
    apply (round_ok set uview m fixed pl KGeneric h Hh Hwf Hidx Hlearn Hval Hplan a0 W fo ual ube unx ugx); auto.
    - intros x t I. apply um_fb.
    - intros x t I. rewrite <- um_n. apply um_P.
    - intros x t I. rewrite <- um_n. apply (u_nonneg h um_wf um_nn).
    - intros x t y k I Rg. apply um_moves; eauto.
    - intros x t s k I Rg. apply um_stay; eauto.
    - intros x t y I Rg. apply um_gp; eauto.
    - intros x t y I Rg. apply um_gn; eauto.
    - intros x t y I Rg. apply um_nx; assumption.
    - intros x t s I Rg. apply um_dx; assumption.
    - destruct Hex as (x & t & I & Q). exists x, t. rewrite HP. auto.
    - destruct Hp as [Hp|Hp]; [left; exact Hp|right]. intros x t I. rewrite HP. eauto.
  Qed.
End Untimed.

(** ** The gain in the jump chain *)
Lemma ln_le_minus x : 0 < x -> ln x <= x - 1.
Proof. intros P. pose proof (exp_ineq1_le (ln x)). rewrite exp_ln in H by exact P. lra. Qed.

Section JumpGain.
  Variables (n : nat) (X r r' : nat -> R) (E E' : R).
  Hypothesis HX : forall s, (s < n)%nat -> 0 <= X s.
  Hypothesis HE : 0 < E.
  Hypothesis Hr : forall s, (s < n)%nat -> 0 < X s -> 0 < r s /\ 0 < r' s.
  Hypothesis HS : Sum n r = E.
  Hypothesis HS' : Sum n r' = E'.
  Hypothesis Hnn' : forall s, (s < n)%nat -> 0 <= r' s.
  Lemma jump_gain : Sum n (fun s => X s * ln (r' s / r s) - Sum n X / E * (r' s - r s)) <= Sum n (fun s => X s * ln (r' s / E' / (r s / E))).
  Proof.
    rewrite Sum_minus, Sum_scal_l, Sum_minus, HS, HS'.
    assert (PX : 0 <= Sum n X) by (apply Sum_nonneg; exact HX). destruct PX as [PX|PX].
    - assert (PE : 0 < E').
      { destruct (Rlt_dec 0 E') as [Q|Q]; [exact Q|exfalso].
        assert (Z : forall s, (s < n)%nat -> X s = 0).
        { intros s Hs. destruct (HX s Hs) as [Q2|Q2]; [|auto]. exfalso. apply Q. rewrite <- HS'. apply Rlt_le_trans with (r' s); [apply Hr; assumption|]. unfold Sum.
          apply (sumL_ge_term (seq 0 n) r' s); [apply in_seq; lia|]. intros b Ib. apply in_seq in Ib. apply Hnn'. lia. }
        rewrite (Sum_zero_ext n X Z) in PX. lra. }
      rewrite (Sum_ext n (fun s => X s * ln (r' s / E' / (r s / E))) (fun s => X s * ln (r' s / r s) - X s * ln (E' / E))).
      + rewrite Sum_minus, Sum_scal_r. pose proof (ln_le_minus (E' / E) (Rdiv_lt_0_compat _ _ PE HE)) as L.
        apply (Rmult_le_compat_l (Sum n X)) in L; [|lra]. replace (Sum n X / E * (E' - E)) with (Sum n X * (E' / E - 1)) by (field; lra). lra.
      + intros s Hs. destruct (HX s Hs) as [Q|Q]; [|rewrite <- Q; ring]. destruct (Hr s Hs Q) as [R1 R2].
        replace (r' s / E' / (r s / E)) with (r' s / r s / (E' / E)) by (field; repeat split; lra).
        unfold Rdiv at 1. rewrite ln_mult, ln_Rinv; [ring| | |]; try apply Rinv_0_lt_compat; apply Rdiv_lt_0_compat; assumption.
    - assert (Z : forall s, (s < n)%nat -> X s = 0) by (intros s Hs; pose proof (Sum_ge_term n X s Hs HX); specialize (HX s Hs); lra).
      rewrite <- PX. rewrite (Sum_zero_ext n (fun s => X s * ln (r' s / r s))), (Sum_zero_ext n (fun s => X s * ln (r' s / E' / (r s / E)))).
      + unfold Rdiv. lra.
      + intros s Hs. rewrite Z by exact Hs. ring.
      + intros s Hs. rewrite Z by exact Hs. ring.
  Qed.
End JumpGain.

Lemma untimed_step fixed pl (set : list (list string * Z)) maxroot p (m m' : pctmc R) ll :
  pos_times set -> solver maxroot -> pinv fixed pl m -> (forall h, hval m = Ok h -> live h) ->
  round_PCTMC maxroot KGeneric false p pl (map (fun st => (uview (fst st), snd st)) set) m = Ok (m', ll) ->
  pinv fixed pl m' /\ same_shape m m' /\ (forall q, ~ In q (free_params fixed m) -> current m' q = current m q) /\
  exists h h', hval m = Ok h /\ hval m' = Ok h' /\ ll = set_ll (mc_trace_prob_move (jump_chain h)) set /\
    set_ll (mc_trace_prob_move (jump_chain h)) set <= set_ll (mc_trace_prob_move (jump_chain h')) set /\
    (forall tr t, In (tr, t) set -> (0 < mc_trace_prob_move (jump_chain h) tr <-> 0 < mc_trace_prob_move (jump_chain h') tr)).
Proof.
  intros HT Hsol [Hwf Hidx Hlearn Hval Hplan] Hlive Er.
  destruct (hval_total m Hidx Hval) as [h Hh]. specialize (Hlive h Hh).
  destruct (untimed_round m fixed pl h set Hh Hwf Hidx Hlearn Hval Hplan HT maxroot p m' ll Hsol Er) as (Sh & L & O & z & Z).
  assert (Z' : forall q, In q (free_params fixed m) -> 0 <= z q /\ current m' q = Some (total (pc_val m) q * z q) /\
     (z q = 1 \/ sumL (list_prod (seq 0 (pc_n m)) (seq 0 (pc_n m))) (fun y => INR (adeg m fixed q y) * ((set_expected (mc_trace_prob_move (jump_chain h)) (mc_expected_visits (jump_chain h) (fst y)) set / exit_rate h (fst y)) * mget (ct_mat h) (fst y) (snd y) * z q ^ tdeg m fixed y)) =
                 sumL (list_prod (seq 0 (pc_n m)) (seq 0 (pc_n m))) (fun y => INR (adeg m fixed q y) * set_expected (mc_trace_prob_move (jump_chain h)) (mc_expected_moves (jump_chain h) (fst y) (snd y)) set))) by (intros q I; destruct (Z q I) as (A & B & [[C _]|C]); auto).
  clear Z; rename Z' into Z.
  assert (Z2 : forall q, In q (free_params fixed m) -> 0 <= z q /\ current m' q = Some (total (pc_val m) q * z q)) by (intros q I; destruct (Z q I) as (A & B & _); auto).
  assert (Hwf' : wf_pctmc m') by (eapply next_wf; eauto).
  assert (Hidx' : indexed m') by (eapply next_indexed; eauto).
  assert (Hlearn' : learnable fixed m') by (eapply next_learnable; eauto).
  assert (Hval' : valued m') by (eapply (next_valued fixed m m' z); eauto).
  assert (Hplan' : plan_ok fixed m' pl) by (eapply (next_plan fixed m m' pl z); eauto).
  split; [constructor; assumption|]. split; [exact Sh|]. split; [exact O|].
  destruct (hval_total m' Hidx' Hval') as [h' Hh']. exists h, h'. split; [exact Hh|]. split; [exact Hh'|]. split; [exact L|].
  assert (En : ct_n h = pc_n m) by (apply hval_n; exact Hh).
  assert (W : wf_ctmc h) by (apply (hval_wf m); assumption).
  assert (W' : wf_ctmc h') by (apply (hval_wf m'); assumption).
  assert (NN : nonneg_mat (ct_mat h)) by (apply (hval_nonneg m); assumption).
  assert (NN' : nonneg_mat (ct_mat h')) by (apply (hval_nonneg m'); assumption).
  assert (En' : ct_n h' = ct_n h) by (rewrite (hval_n m' h' Hh'), En; apply (shape_expr m m' Sh)).
  pose proof (hval_realises m h Hh) as Rh. pose proof (hval_realises m' h' Hh') as Rh'.
  assert (El : ct_lab h' = ct_lab h) by (destruct Rh as (-> & _), Rh' as (-> & _); apply Sh).
  assert (Ei : ct_ini h' = ct_ini h) by (destruct Rh as (_ & -> & _), Rh' as (_ & -> & _); apply Sh).
  set (N := fun y : nat * nat => set_expected (mc_trace_prob_move (jump_chain h)) (mc_expected_moves (jump_chain h) (fst y) (snd y)) set) in *.
  set (D := fun s => set_expected (mc_trace_prob_move (jump_chain h)) (mc_expected_visits (jump_chain h) s) set / exit_rate h s) in *.
  assert (JN : nonneg_mat (mc_mat (jump_chain h))) by (apply jc_nonneg; exact NN).
  assert (JI : nonneg (mc_ini (jump_chain h))) by (apply W).
  assert (EN : forall s s', (s < ct_n h)%nat -> (s' < ct_n h)%nat -> mcNUM (jump_chain h) set s s' = N (s, s')) by (intros s s' R1 R2; unfold N; cbn [fst snd]; apply mcNUM_path; rewrite jc_n; assumption).
  assert (JG : forall s s', mget (mc_mat (jump_chain h)) s s' = jump h s s') by (intros; apply jc_mat; exact W).
  assert (JG' : forall s s', mget (mc_mat (jump_chain h')) s s' = jump h' s s') by (intros; apply jc_mat; exact W').
  assert (HN : forall y, inrange m y -> 0 <= N y).
  { intros [s s'] [R1 R2]. cbn [fst snd] in *. rewrite <- En in R1, R2. rewrite <- EN by assumption. apply mcNUM_nonneg; auto; rewrite jc_n; assumption. }
  assert (EV : forall s, (s < ct_n h)%nat -> D s = Sum (ct_n h) (fun s' => N (s, s')) / exit_rate h s).
  { intros s R1. unfold D. f_equal. rewrite <- mcDEN_path by (rewrite jc_n; exact R1). rewrite mcDEN_sum by (rewrite jc_n; exact R1). rewrite jc_n. apply Sum_ext. intros s' R2. apply EN; assumption. }
  assert (HD : forall s, (s < pc_n m)%nat -> 0 <= D s).
  { intros s R1. rewrite <- En in R1. rewrite EV by exact R1. apply Rdiv_le_0_compat; [|apply Hlive; exact R1]. apply Sum_nonneg. intros s' R2. apply HN. split; cbn [fst snd]; rewrite <- En; assumption. }
  assert (HNr : forall y, inrange m y -> 0 < N y -> 0 < mget (ct_mat h) (fst y) (snd y)).
  { intros [s s'] [R1 R2] P. cbn [fst snd] in *. rewrite <- En in R1, R2. rewrite <- EN in P by assumption. apply mcNUM_supp in P; auto.
    rewrite JG in P. unfold jump in P. pose proof (mget_nonneg (ct_mat h) s s' NN). destruct (Req_dec (mget (ct_mat h) s s') 0) as [E|E]; [|lra].
    change (matR (ct_mat h) s s') with (mget (ct_mat h) s s') in P. rewrite E in P. unfold Rdiv in P. lra. }
  assert (Hsupp : forall s s', (s < ct_n h)%nat -> (s' < ct_n h)%nat -> 0 < N (s, s') -> 0 < mget (ct_mat h') s s').
  { intros s s' R1 R2 P. rewrite En in R1, R2. apply (gain_supp fixed m m' z h h' Hidx Hlearn Hval Sh O Hh Hh' N D HN HNr Z) with (y := (s, s')); auto. split; assumption. }
  assert (Hex : forall s s', (s < ct_n h)%nat -> (s' < ct_n h)%nat -> 0 < mget (ct_mat h') s s' -> 0 < exit_rate h' s).
  { intros s s' R1 R2 P. apply (um_exit m' h' Hh' Hwf' Hval') with (s' := s'); try (rewrite En'; assumption). lra. }
  assert (Pjc : forall tr, tot (mc_n (jump_chain h)) (vget (mc_ini (jump_chain h))) (mc_ws (jump_chain h') tr) (fun _ => 1) = mc_trace_prob_move (jump_chain h') tr).
  { intros tr. rewrite <- mcP_path. unfold mcP. rewrite !jc_n, En'. cbn [mc_ini jump_chain]. rewrite Ei. reflexivity. }
  pose proof (e_em_mono (jump_chain h) (jump_chain h') set JN JI HT El) as G. destruct G as [G1 G2].
  - apply jc_nonneg. exact NN'.
  - intros s s' R1 R2 E. rewrite jc_n in R1, R2. rewrite JG in E. rewrite JG'. unfold jump in *.
    assert (E1 : mget (ct_mat h) s s' = 0).
    { apply Rmult_integral in E. destruct E as [E|E]; [exact E|]. exfalso. apply (Rinv_neq_0_compat (exit_rate h s)); [|exact E]. specialize (Hlive s R1). lra. }
    change (matR (ct_mat h') s s') with (mget (ct_mat h') s s'). rewrite En in R1, R2.
    pose proof (gain_zero fixed m m' z h h' Hidx Hlearn Hval Sh O Hh Hh' N D Z (s, s') (conj R1 R2) E1) as E2. cbn [fst snd] in E2. rewrite E2. unfold Rdiv. ring.
  - intros s s' R1 R2 P. rewrite jc_n in R1, R2. rewrite EN in P by assumption. rewrite JG'. unfold jump. pose proof (Hsupp s s' R1 R2 P) as Q. apply Rdiv_lt_0_compat; [exact Q|].
    apply (Hex s s'); assumption.
  - rewrite jc_n. pose proof (gain fixed m m' z h h' Hidx Hlearn Hval Sh O Hh Hh' N D HN HD HNr Z) as G. rewrite <- En in G. apply Rle_trans with (1 := G). apply Sum_le. intros s R1.
    rewrite (Sum_ext (ct_n h) (fun s' => mcNUM (jump_chain h) set s s' * _) (fun s' => N (s, s') * ln (mget (ct_mat h') s s' / exit_rate h' s / (mget (ct_mat h) s s' / exit_rate h s)))).
    2:{ intros s' R2. rewrite EN, JG, JG' by assumption. reflexivity. }
    rewrite EV by exact R1. apply (jump_gain (ct_n h) (fun s' => N (s, s')) (mget (ct_mat h) s) (mget (ct_mat h') s)).
    + intros s' R2. apply HN. split; cbn [fst snd]; rewrite <- En; assumption.
    + apply Hlive. exact R1.
    + intros s' R2 P. split; [apply (HNr (s, s')); auto; split; cbn [fst snd]; rewrite <- En; assumption|apply Hsupp; assumption].
    + unfold exit_rate. rewrite (row_sum_Sum (ct_mat h) (ct_n h) s) by (auto; apply W). reflexivity.
    + unfold exit_rate. rewrite <- En'. rewrite (row_sum_Sum (ct_mat h') (ct_n h') s) by (rewrite ?En'; auto; rewrite <- En'; apply W'). reflexivity.
    + intros. apply mget_nonneg. exact NN'.
  - split.
    + rewrite <- (set_ll_ext _ _ set (fun tr t I => mcP_path (jump_chain h) tr)), <- (set_ll_ext _ _ set (fun tr t I => Pjc tr)). exact G1.
    + intros tr t I. specialize (G2 tr t I). rewrite Pjc, mcP_path in G2. exact G2.
Qed.
