(** Baum-Welch on Markov chains. *)
From Coq Require Import String ZArith Bool Reals List Lia Lra Psatz.
From Verif Require Import Num Py SNum SPath LSum MSet MModels MLik MBW LFB LEM SBW LBW LBWSet.
Import ListNotations.
Local Open Scope R_scope.

Lemma wsum_ones1 l k : length l = k -> wsum l (repeat 1 k) = rsum l.
Proof. intros <-. apply wsum_ones. lia. Qed.

Lemma nth_mget_in (mat : list (list R)) n s : square n mat -> (s < n)%nat -> In (nth s mat []) mat.
Proof. intros [L _] Hs. apply nth_In. lia. Qed.
Lemma row_sum_Sum (mat : list (list R)) n s : square n mat -> (s < n)%nat -> rsum (nth s mat []) = Sum n (mget mat s).
Proof.
  intros Sq Hs. rewrite rsum_nth. destruct Sq as [L H]. rewrite (H (nth s mat [])) by (apply nth_In; lia). reflexivity.
Qed.
Lemma mget_nonneg (mat : list (list R)) i j : nonneg_mat mat -> 0 <= mget mat i j.
Proof.
  intros H. unfold mget, vget. nR. destruct (Nat.lt_ge_cases i (length mat)) as [Hi|Hi].
  - destruct (Nat.lt_ge_cases j (length (nth i mat []))) as [Hj|Hj].
    + apply (H (nth i mat [])); apply nth_In; assumption.
    + rewrite nth_overflow by exact Hj. lra.
  - rewrite (nth_overflow mat) by exact Hi. destruct j; cbn; lra.
Qed.
Lemma vget_nonneg (v : list R) i : nonneg v -> 0 <= vget v i.
Proof.
  intros H. unfold vget. nR. destruct (Nat.lt_ge_cases i (length v)) as [Hi|Hi].
  - apply H. apply nth_In; assumption.
  - rewrite nth_overflow by exact Hi. lra.
Qed.
Lemma mat_from_entries (mat : list (list R)) n (Q : R -> Prop) : square n mat ->
  (forall i j, (i < n)%nat -> (j < n)%nat -> Q (mget mat i j)) -> forall r x, In r mat -> In x r -> Q x.
Proof.
  intros [L H] Hq r x Ir Ix. apply (In_nth _ _ []) in Ir. destruct Ir as [i [Hi E]].
  apply (In_nth _ _ 0) in Ix. destruct Ix as [j [Hj E']]. subst. apply Hq; [lia|]. rewrite <- (H (nth i mat [])) by (apply nth_In; exact Hi). exact Hj.
Qed.

Section MCfit.
  Variable m : mc R.
  Notation n := (mc_n m).
  Notation a0 := (vget (mc_ini m)).
  Notation Wm := (mc_ws m).
  Notation fo := (fun (_ : list string) (_ : nat) => 1).
  Hypothesis Hwf : wf_mc m.

  Definition mcP (tr : list string) : R := tot n a0 (Wm tr) (fun _ => 1).

  Lemma mc_ini_len : length (mc_ini m) = n. Proof. apply Hwf. Qed.

  Lemma pw_mc tr t : processWork_MC m tr t =
    if Req_EM_T (mcP tr) 0 then None
    else Some (mkStatMC
      (vbuild n (fun s => rsum (gam n a0 (Wm tr) (fun _ => 1) s) * (IZR t / mcP tr)))
      (vbuild n (fun s => vbuild n (fun s' => rsum (xi n a0 (Wm tr) (fun _ => 1) s s') * (IZR t / mcP tr))))
      (mcP tr) t).
  Proof.
    unfold processWork_MC. rewrite (proba_model n (mc_ini m) (Wm tr) mc_ini_len). fold (mcP tr).
    nR. unfold Reqb. destruct (Req_EM_T (mcP tr) 0) as [EZ|NZ]; [reflexivity|]. f_equal. f_equal.
    - apply vbuild_ext. intros s Hs. rewrite (stat_den_spec n) by (auto using mc_ini_len, vones_length). f_equal. f_equal.
      apply gam_ext_f; [|exact Hs]. intros; apply vget_vones; assumption.
    - apply vbuild_ext. intros s Hs. apply vbuild_ext. intros s' Hs'.
      rewrite (stat_num_spec n); auto using mc_ini_len, vones_length.
      + f_equal. f_equal. apply xi_ext_f; [|exact Hs']. intros; apply vget_vones; assumption.
      + unfold mc_ws. rewrite map_map. reflexivity.
  Qed.

  Variable set : list (list string * Z).
  Notation P1 := (Pof n a0 Wm fo).
  Definition mcNUM := XI n set a0 Wm fo (ones1 Wm).
  Definition mcDEN := GA n set a0 Wm fo (ones1 Wm).

  Hypothesis Hnn : nonneg_mat (mc_mat m).
  Hypothesis Hini : nonneg (mc_ini m).

  Lemma mc_okw tr : Forall (okw n) (Wm tr).
  Proof.
    apply Forall_forall. intros w I. unfold mc_ws in I. apply in_map_iff in I. destruct I as [o [<- _]].
    intros s s' Hs Hs'. unfold mc_tau. destruct (negb _); nR; [lra|]. apply mget_nonneg. exact Hnn.
  Qed.
  Lemma mc_oka : okf n a0. Proof. intros s Hs. apply vget_nonneg. exact Hini. Qed.
  Lemma okf1 : okf n (fun _ => 1). Proof. intros s Hs. lra. Qed.
  Lemma mcP_nonneg tr : 0 <= mcP tr.
  Proof. apply Sum_nonneg. intros s Hs. apply Rmult_le_pos; [apply mc_oka; exact Hs|apply Bk_nonneg; auto using mc_okw, okf1]. Qed.

  Lemma sumL_goods_mc (F : stat_mc -> R) : 
    sumL (goods (processWork_MC m) set) F =
    psum n set a0 Wm fo (fun tr t => match processWork_MC m tr t with Some st => F st | None => 0 end).
  Proof.
    rewrite sumL_goods. unfold psum. apply sumL_ext. intros [tr t] I. cbn [fst snd].
    change (P1 tr) with (mcP tr). destruct (Rlt_dec 0 (mcP tr)); [reflexivity|].
    rewrite pw_mc. destruct (Req_EM_T (mcP tr) 0) as [EZ|NZ]; [reflexivity|]. pose proof (mcP_nonneg tr). lra.
  Qed.

  Lemma round_MC_spec p m' ll : round_MC p set m = Ok (m', ll) ->
    mc_lab m' = mc_lab m /\ mc_ini m' = mc_ini m /\ mc_name m' = mc_name m /\ mc_n m' = n /\ square n (mc_mat m') /\
    (forall s s', (s < n)%nat -> (s' < n)%nat -> mget (mc_mat m') s s' = est (mcDEN s) (mcNUM s) (mget (mc_mat m) s) s') /\
    ll = set_ll mcP set /\ (exists tr t, In (tr, t) set /\ 0 < mcP tr).
  Proof.
    unfold round_MC, update_MC. destruct (unwrap _) as [temp|] eqn:E; [|discriminate]. apply unwrap_run in E. cbn [bind]. subst temp.
    destruct (goods (processWork_MC m) set) as [|g0 gs] eqn:G; [discriminate|]. rewrite <- G.
    intros H. inversion H as [[H1 H2]]. clear H. cbn [mc_lab mc_ini mc_name mc_mat].
    assert (NE : goods (processWork_MC m) set <> []) by (rewrite G; discriminate).
    assert (Sh : forall st, In st (goods (processWork_MC m) set) -> length (sm_den st) = n /\ shaped n n (sm_num st)).
    { intros st I. apply In_goods in I. destruct I as [[tr t] [_ E]]. cbn in E. rewrite pw_mc in E.
      destruct (Req_EM_T _ 0); [discriminate|]. inversion E. cbn. split; [apply vbuild_length|apply shaped_vbuild]. }
    destruct (vsum_all_spec (map sm_den (goods (processWork_MC m) set)) n) as [Ld Ed].
    { destruct (goods _ _); [congruence|discriminate]. }
    { intros v I. apply in_map_iff in I. destruct I as [st [<- I]]. apply Sh; exact I. }
    destruct (msum_all_spec (map sm_num (goods (processWork_MC m) set)) n n) as [Ln En].
    { destruct (goods _ _); [congruence|discriminate]. }
    { intros v I. apply in_map_iff in I. destruct I as [st [<- I]]. apply Sh; exact I. }
    assert (Dd : forall s, (s < n)%nat -> vget (vsum_all (map sm_den (goods (processWork_MC m) set))) s = mcDEN s).
    { intros s Hs. rewrite Ed by exact Hs. rewrite sumL_map, sumL_goods_mc. apply psum_ext. intros tr t I P.
      rewrite pw_mc. change (P1 tr) with (mcP tr) in P. destruct (Req_EM_T (mcP tr) 0); [lra|]. cbn [sm_den].
      rewrite vget_vbuild by exact Hs. unfold ones1. rewrite wsum_ones1 by apply gam_length. reflexivity. }
    assert (Dn : forall s s', (s < n)%nat -> (s' < n)%nat -> mget (msum_all (map sm_num (goods (processWork_MC m) set))) s s' = mcNUM s s').
    { intros s s' Hs Hs'. rewrite En by assumption. rewrite sumL_map, sumL_goods_mc. apply psum_ext. intros tr t I P.
      rewrite pw_mc. change (P1 tr) with (mcP tr) in P. destruct (Req_EM_T (mcP tr) 0); [lra|]. cbn [sm_num].
      rewrite mget_vbuild by assumption. unfold ones1. rewrite wsum_ones1 by apply xi_length. reflexivity. }
    split; [reflexivity|]. split; [reflexivity|]. split; [reflexivity|].
    split; [unfold mc_n at 1; cbn [mc_mat]; apply vbuild_length|].
    split; [apply new_matrix_square|]. split.
    - intros s s' Hs Hs'. rewrite new_matrix_get by assumption. unfold est. rewrite Dd by exact Hs. rewrite Dn by assumption. reflexivity.
    - split.
      + rewrite log_lik_spec, sumL_map. rewrite sumL_goods_mc. unfold set_ll, psum. apply sumL_ext. intros [tr t] I. cbn [fst snd].
        change (P1 tr) with (mcP tr). destruct (Rlt_dec 0 (mcP tr)) as [P|P]; [|reflexivity].
        rewrite pw_mc. destruct (Req_EM_T (mcP tr) 0); [lra|]. cbn. ring.
      + assert (I0 : In g0 (goods (processWork_MC m) set)) by (rewrite G; left; reflexivity).
        apply In_goods in I0. destruct I0 as [[tr t] [I E]]. exists tr, t. split; [exact I|]. cbn in E. rewrite pw_mc in E.
        destruct (Req_EM_T (mcP tr) 0); [discriminate|]. pose proof (mcP_nonneg tr). lra.
  Qed.

  (** ** Consequences *)
  Hypothesis HT : pos_times set.

  Lemma mcNUM_nonneg s s' : (s < n)%nat -> (s' < n)%nat -> 0 <= mcNUM s s'.
  Proof.
    intros. apply XI_nonneg; auto.
    - intros; apply mc_okw.
    - intros; apply okf1.
    - apply mc_oka.
    - intros x y I. apply repeat_spec in I. lra.
  Qed.
  Lemma mcDEN_sum s : (s < n)%nat -> mcDEN s = Sum n (mcNUM s).
  Proof. intros Hs. apply GA_XI. exact Hs. Qed.

  (** expected transitions only where the matrix is positive *)
  Lemma mc_xi_zero tr s s' : mget (mc_mat m) s s' = 0 -> forall k, nth k (xi n a0 (Wm tr) (fun _ => 1) s s') 0 = 0.
  Proof.
    intros Z k. apply xi_nth_zero. revert k. induction tr as [|o l IH]; intros [|k]; cbn; auto.
    unfold mc_tau. rewrite Z. destruct (negb _); reflexivity.
  Qed.
  Lemma mcNUM_zero s s' : mget (mc_mat m) s s' = 0 -> mcNUM s s' = 0.
  Proof.
    intros Z. apply XI_zero. intros tr t k I P. apply mc_xi_zero. exact Z.
  Qed.
  Lemma mcNUM_supp s s' : 0 < mcNUM s s' -> 0 < mget (mc_mat m) s s'.
  Proof.
    intros P. pose proof (mget_nonneg (mc_mat m) s s' Hnn). destruct (Req_dec (mget (mc_mat m) s s') 0) as [E|E]; [|lra].
    rewrite mcNUM_zero in P by exact E. lra.
  Qed.

  Variable m' : mc R.
  Hypothesis Hlab : mc_lab m' = mc_lab m.
  Hypothesis Hini' : mc_ini m' = mc_ini m.
  Hypothesis Hn' : mc_n m' = n.
  Hypothesis Hsq' : square n (mc_mat m').
  Hypothesis Hget : forall s s', (s < n)%nat -> (s' < n)%nat -> mget (mc_mat m') s s' = est (mcDEN s) (mcNUM s) (mget (mc_mat m) s) s'.
  Notation W' := (mc_ws m').

  Lemma mc_nonneg' s s' : (s < n)%nat -> (s' < n)%nat -> 0 <= mget (mc_mat m') s s'.
  Proof.
    intros Hs Hs'. rewrite Hget by assumption. apply (est_nonneg n); auto.
    - apply mcDEN_sum; exact Hs.
    - intros. apply mcNUM_nonneg; assumption.
    - intros. apply mget_nonneg; exact Hnn.
  Qed.
  Lemma mc_nonneg_mat' : nonneg_mat (mc_mat m').
  Proof. intros r Ir x Ix. exact (mat_from_entries _ n (fun x => 0 <= x) Hsq' mc_nonneg' r x Ir Ix). Qed.
  Lemma mc_row_sum' s : (s < n)%nat -> rsum (nth s (mc_mat m') []) = if Req_EM_T (mcDEN s) 0 then rsum (nth s (mc_mat m) []) else 1.
  Proof.
    intros Hs. rewrite (row_sum_Sum _ n) by assumption.
    rewrite (Sum_ext n _ (est (mcDEN s) (mcNUM s) (mget (mc_mat m) s))) by (intros; apply Hget; assumption).
    rewrite est_sum by (apply mcDEN_sum; exact Hs). rewrite (row_sum_Sum _ n) by (auto; apply Hwf). reflexivity.
  Qed.
  Lemma mc_zero' s s' : (s < n)%nat -> (s' < n)%nat -> mget (mc_mat m) s s' = 0 -> mget (mc_mat m') s s' = 0.
  Proof.
    intros Hs Hs' Z. rewrite Hget by assumption. unfold est. destruct (Req_EM_T _ 0); [exact Z|].
    rewrite mcNUM_zero by exact Z. unfold Rdiv; ring.
  Qed.

  Lemma mc_tau_pos s s' o : 0 < mc_tau m s s' o -> mc_tau m s s' o = mget (mc_mat m) s s' /\ mc_tau m' s s' o = mget (mc_mat m') s s'.
  Proof. unfold mc_tau. rewrite Hlab. destruct (negb _); nR; [lra|auto]. Qed.

  Lemma mc_supp tr t : In (tr, t) set -> 0 < P1 tr -> supp n a0 (Wm tr) (W' tr) (fun _ => 1).
  Proof.
    intros I P. apply supp_xi; [unfold mc_ws; rewrite !map_length; reflexivity|].
    intros k s s' Hk Hs Hs' Px.
    assert (PN : 0 < mcNUM s s').
    { apply (XI_ones_pos n set a0 Wm fo HT) with (x := tr) (t := t) (k := k); auto.
      - intros; apply mc_okw.
      - intros; apply okf1.
      - apply mc_oka. }
    assert (Pk : 0 < nth k (Wm tr) (fun _ _ => 0) s s').
    { apply (xi_nth_pos n a0 _ (fun _ => 1)); auto using mc_okw, mc_oka, okf1. }
    unfold mc_ws in Hk, Pk |- *. rewrite map_length in Hk.
    rewrite nth_indep with (d' := (fun o ss s => mc_tau m ss s o) EmptyString) in Pk by (rewrite map_length; exact Hk).
    rewrite (map_nth (fun o ss s => mc_tau m ss s o)) in Pk.
    rewrite nth_indep with (d' := (fun o ss s => mc_tau m' ss s o) EmptyString) by (rewrite map_length; exact Hk).
    rewrite (map_nth (fun o ss s => mc_tau m' ss s o)).
    destruct (mc_tau_pos _ _ _ Pk) as [_ ->]. rewrite Hget by assumption. unfold est. destruct (Req_EM_T _ 0) as [E|E].
    - apply mcNUM_supp. exact PN.
    - apply Rdiv_lt_0_compat; [exact PN|]. rewrite mcDEN_sum in * by exact Hs.
      assert (0 <= Sum n (mcNUM s)) by (apply Sum_nonneg; intros; apply mcNUM_nonneg; auto). lra.
  Qed.

  Hypothesis Hsub : forall r, In r (mc_mat m) -> rsum r <= 1.


  Lemma mc_ws_F2 tr : Forall2 (fun w w' : nat -> nat -> R => forall s s', (s < n)%nat -> (s' < n)%nat -> w s s' = 0 -> w' s s' = 0) (Wm tr) (W' tr).
  Proof.
    unfold mc_ws. induction tr as [|o tr IH]; cbn; constructor; auto.
    intros s s' Hs Hs' E. unfold mc_tau in *. rewrite Hlab. destruct (negb _); [reflexivity|]. apply mc_zero'; assumption.
  Qed.
  Lemma mc_zero_prob tr : mcP tr = 0 -> tot n a0 (W' tr) (fun _ => 1) = 0.
  Proof. intros Z. apply (tot_zero n a0 a0 (Wm tr)); auto using mc_okw, okf1, mc_oka, mc_ws_F2. Qed.

  Lemma mc_okw' tr : Forall (okw n) (W' tr).
  Proof.
    apply Forall_forall. intros w I. unfold mc_ws in I. apply in_map_iff in I. destruct I as [o [<- _]].
    intros s s' Hs Hs'. unfold mc_tau. destruct (negb _); nR; [lra|]. apply mc_nonneg'; assumption.
  Qed.

  Definition mc_change : R := Sum n (fun s => mcDEN s * sqdist n (mget (mc_mat m) s) (mget (mc_mat m') s)).
  Lemma mc_em_gain : set_ll mcP set + mc_change <= set_ll (fun tr => tot n a0 (W' tr) (fun _ => 1)) set /\
    (forall tr t, In (tr, t) set -> (0 < mcP tr <-> 0 < tot n a0 (W' tr) (fun _ => 1))).
  Proof.
    assert (HI : forall s, (s < n)%nat -> 0 < IN n set a0 Wm fo s -> 0 < a0 s).
    { intros s Hs P. pose proof (mc_oka s Hs). destruct (Req_dec (a0 s) 0) as [E|E]; [exfalso|lra].
      unfold IN in P. rewrite (psum_ext n set a0 Wm fo _ (fun _ _ => 0 * 0)) in P; [rewrite psum_scal_r in P; lra|].
      intros. rewrite E. ring. }
    assert (Pp : forall tr t, In (tr, t) set -> 0 < P1 tr -> 0 < Pof' n fo a0 W' tr).
    { intros tr t I P. apply (Pof'_pos n set a0 Wm fo HT) with (t := t); auto; intros; eauto using mc_okw, mc_okw', okf1, mc_oka, mc_supp. }
    split.
    - change (fun tr => tot n a0 (W' tr) (fun _ => 1)) with (Pof' n fo a0 W').
      change mcP with P1.
      rewrite (set_ll_improve n set a0 Wm fo HT) with (a' := a0) (W' := W'); intros; eauto using mc_okw, mc_okw', okf1, mc_oka, mc_supp, mc_zero_prob.
      apply Rplus_le_compat_l.
      eapply Rle_trans; [|apply (em_set n set a0 Wm fo HT); intros; eauto using mc_okw, mc_okw', okf1, mc_oka, mc_supp].
      rewrite <- (Rplus_0_l mc_change). apply Rplus_le_compat.
      + apply Req_le. symmetry. apply Sum_zero_ext. intros s Hs.
        destruct (Req_dec (a0 s) 0) as [E|E].
        * enough (IN n set a0 Wm fo s = 0) as -> by ring.
          unfold IN. rewrite (psum_ext n set a0 Wm fo _ (fun _ _ => 0 * 0)); [rewrite psum_scal_r; ring|]. intros. rewrite E. ring.
        * replace (a0 s / a0 s) with 1 by (field; exact E). rewrite ln_1. ring.
      + apply Sum_le. intros s Hs.
        rewrite (Sum_ext n _ (fun s' => mcNUM s s' * ln (est (mcDEN s) (mcNUM s) (mget (mc_mat m) s) s' / mget (mc_mat m) s s'))).
        * replace (sqdist n (mget (mc_mat m) s) (mget (mc_mat m') s)) with (sqdist n (mget (mc_mat m) s) (est (mcDEN s) (mcNUM s) (mget (mc_mat m) s)))
            by (apply Sum_ext; intros j Hj; rewrite Hget by assumption; reflexivity).
          apply est_gain.
          -- apply mcDEN_sum; exact Hs.
          -- intros; apply mcNUM_nonneg; assumption.
          -- intros; apply mget_nonneg; exact Hnn.
          -- intros; apply mcNUM_supp; assumption.
          -- rewrite <- (row_sum_Sum (mc_mat m) n) by (auto; apply Hwf). apply Hsub. apply (nth_mget_in _ n); [apply Hwf|exact Hs].
        * intros s' Hs'. unfold mcNUM, XI. rewrite <- psum_scal_r. apply psum_ext. intros tr t I P.
          rewrite <- Hget by assumption.
          replace (wsum (xi n a0 (Wm tr) (fun _ => 1) s s') (lrs (Wm tr) (W' tr) s s'))
            with (wsum (xi n a0 (Wm tr) (fun _ => 1) s s') (ones1 Wm tr) * ln (mget (mc_mat m') s s' / mget (mc_mat m) s s')); [ring|].
          unfold ones1. rewrite wsum_ones1 by apply xi_length.
          rewrite <- (wsum_const (xi n a0 (Wm tr) (fun _ => 1) s s') (repeat (ln (mget (mc_mat m') s s' / mget (mc_mat m) s s')) (length (Wm tr)))).
          2:{ intros y Iy. apply repeat_spec in Iy. exact Iy. }
          2:{ rewrite xi_length, repeat_length. lia. }
          clear - Hs Hs' Hlab Hnn Hini. generalize a0 mc_oka. generalize tr. induction tr0 as [|o l IH]; intros b Hb; [reflexivity|].
          cbn [mc_ws map length repeat xi lrs zipwith]. rewrite !wsum_cons. f_equal.
          -- destruct (negb (o =? lab (mc_lab m) s)%string) eqn:E.
             ++ assert (mc_tau m s s' o = 0) as -> by (unfold mc_tau; rewrite E; reflexivity). ring.
             ++ unfold mc_tau. rewrite Hlab, E. reflexivity.
          -- apply IH. apply step_nonneg; [exact Hb|]. intros i j Hi Hj. unfold mc_tau. destruct (negb _); nR; [lra|]. apply mget_nonneg; exact Hnn.
    - intros tr t I. split; [intros P; exact (Pp tr t I P)|].
      intros P. destruct (Req_dec (mcP tr) 0) as [E|E]; [rewrite (mc_zero_prob tr E) in P; lra|]. pose proof (mcP_nonneg tr). lra.
  Qed.
  Lemma mc_change_nonneg : 0 <= mc_change.
  Proof.
    apply Sum_nonneg. intros s Hs. apply Rmult_le_pos; [|apply sqdist_nonneg]. rewrite mcDEN_sum by exact Hs.
    apply Sum_nonneg. intros. apply mcNUM_nonneg; auto.
  Qed.
  Lemma mc_em_mono : set_ll mcP set <= set_ll (fun tr => tot n a0 (W' tr) (fun _ => 1)) set /\
    (forall tr t, In (tr, t) set -> (0 < mcP tr <-> 0 < tot n a0 (W' tr) (fun _ => 1))).
  Proof. destruct mc_em_gain as [H1 H2]. pose proof mc_change_nonneg. split; [lra|exact H2]. Qed.
End MCfit.
