(** Baum-Welch on continuous-time Markov chains. *)
From Coq Require Import String ZArith Bool Reals List Lia Lra Psatz FunctionalExtensionality.
From Verif Require Import Num Py SNum SPath LSum MSet MModels MLik MBW LFB LEM SBW LBW LBWSet LBWMC SLik LLik LEMGen LBWMDP.
Import ListNotations.
Local Open Scope R_scope.

(** ** The update, for any worker computing these statistics *)
Section Upd.
  Context {S : Type}.
  Variables (m : ctmc R) (fixed : list (list bool)) (set : list (S * Z)).
  Variables (W : S -> list (nat -> nat -> R)) (f : S -> nat -> R) (c : S -> list R) (work : S -> Z -> option (@stat_mc R)).
  Notation n := (ct_n m).
  Notation a0 := (vget (ct_ini m)).
  Notation P := (Pof n a0 W f).
  Definition cmk (x : S) (t : Z) : @stat_mc R :=
    let k := IZR t / P x in
    mkStatMC
      (vbuild n (fun s => wsum (gam n a0 (W x) (f x) s) (c x) * k))
      (vbuild n (fun s => vbuild n (fun s' => if fixed_get fixed s s' then 0 else rsum (xi n a0 (W x) (f x) s s') * k)))
      (P x) t.
  Hypothesis Hwork : forall x t, In (x, t) set -> work x t = if Req_EM_T (P x) 0 then None else Some (cmk x t).
  Hypothesis HP : forall x t, In (x, t) set -> 0 <= P x.

  Definition cXI := XI n set a0 W f (ones1 W).
  Definition cDEN := GA n set a0 W f c.
  Definition cNUM (s s' : nat) : R := if fixed_get fixed s s' then 0 else cXI s s'.

  Lemma update_CTMC_spec p m' ll : update_CTMC m fixed (runProcesses p work set) = Ok (m', ll) ->
    ct_lab m' = ct_lab m /\ ct_ini m' = ct_ini m /\ ct_name m' = ct_name m /\ ct_n m' = n /\ square n (ct_mat m') /\
    (forall s s', (s < n)%nat -> (s' < n)%nat ->
       mget (ct_mat m') s s' = mget (ct_mat m) s s' * (if fixed_get fixed s s' then 1 else 0) + est (cDEN s) (cNUM s) (mget (ct_mat m) s) s') /\
    ll = set_ll P set /\ (exists tr t, In (tr, t) set /\ 0 < P tr).
  Proof.
    unfold update_CTMC. destruct (unwrap _) as [temp|] eqn:E; [|discriminate]. apply unwrap_run in E. cbn [bind]. subst temp.
    destruct (goods work set) as [|g0 gs] eqn:G; [discriminate|]. rewrite <- G.
    intros H. inversion H as [[H1 H2]]. clear H. cbn [ct_lab ct_ini ct_name ct_mat].
    assert (NE : goods work set <> []) by (rewrite G; discriminate).
    destruct (goods_vsum n set a0 W f _ cmk Hwork HP sm_den n NE) as [_ Ed]; [intros; apply vbuild_length|].
    pose proof (goods_msum n set a0 W f _ cmk Hwork HP sm_num n n NE (fun x t => shaped_vbuild n n _)) as Ea.
    split; [reflexivity|]. split; [reflexivity|]. split; [reflexivity|].
    split; [unfold ct_n at 1; cbn [ct_mat]; apply vbuild_length|]. split.
    { split; [apply vbuild_length|]. intros r Ir. apply in_map_iff in Ir. destruct Ir as [s [<- _]]. apply vbuild_length. }
    split; [|split].
    - intros s s' Hs Hs'. rewrite mget_vbuild by assumption. rewrite new_matrix_get by assumption.
      nR. f_equal. unfold est. rewrite Ed by exact Hs. rewrite Ea by assumption.
      assert (Dd : psum n set a0 W f (fun x t => vget (sm_den (cmk x t)) s) = cDEN s).
      { apply psum_ext. intros x t I Px. cbn [cmk sm_den]. rewrite vget_vbuild by exact Hs. reflexivity. }
      rewrite Dd. destruct (Req_EM_T _ 0); [reflexivity|]. f_equal. unfold cNUM. destruct (fixed_get fixed s s') eqn:Fx.
      + apply psum_zero. intros x t I Px. cbn [cmk sm_num]. rewrite mget_vbuild, Fx by assumption. reflexivity.
      + apply psum_ext. intros x t I Px. cbn [cmk sm_num]. rewrite mget_vbuild, Fx by assumption.
        unfold ones1. rewrite wsum_ones1 by apply xi_length. reflexivity.
    - apply (goods_ll n set a0 W f _ cmk Hwork HP). reflexivity.
    - apply (goods_pos n set a0 W f _ cmk Hwork HP). exact NE.
  Qed.
  Lemma update_CTMC_succeeds p : (exists x t, In (x, t) set /\ 0 < P x) -> ((1 < p)%nat \/ forall x t, In (x, t) set -> 0 < P x) ->
    exists m' ll, update_CTMC m fixed (runProcesses p work set) = Ok (m', ll).
  Proof.
    intros Ex Hp. unfold update_CTMC. rewrite (unwrap_gen n set a0 W f _ cmk Hwork) by exact Hp. cbn [bind].
    destruct (goods work set) eqn:G; [|eauto]. exfalso. revert G. apply (goods_ne n set a0 W f _ cmk Hwork). exact Ex.
  Qed.
End Upd.

(** ** Timed traces *)
Section Timed.
  Variable m : ctmc R.
  Notation n := (ct_n m).
  Notation a0 := (vget (ct_ini m)).
  Definition ots (tr : list string * list R) : list (string * R) := combine (removelast (fst tr)) (snd tr).
  Definition tA (m : ctmc R) (_ : string * R) := matR (ct_mat m).
  Definition tb (m : ctmc R) (ot : string * R) (s : nat) := is_label (ct_lab m) (fst ot) s * exp (- (exit_rate m s * snd ot)).
  Definition tW (m : ctmc R) : list string * list R -> list (nat -> nat -> R) := ew ots (tA m) (tb m).
  Definition tf (m : ctmc R) (tr : list string * list R) : nat -> R := is_label (ct_lab m) (last (fst tr) EmptyString).
  Definition tc (tr : list string * list R) : list R := map snd (ots tr).
  Notation W := (tW m).
  Notation fo := (tf m).
  Notation P := (Pof n a0 W fo).
  Hypothesis Hwf : wf_ctmc m.
  Variable fixed : list (list bool).

  Lemma ct_ws_eq tr : map (ct_w m) (ots tr) = W tr.
  Proof.
    unfold tW, ew. apply map_ext. intros [o t]. rewrite ct_w_eq. unfold tb, tA, jump_density. cbn [fst snd].
    extensionality s. extensionality s'. ring.
  Qed.
  Lemma ct_ini_len : length (ct_ini m) = n. Proof. apply Hwf. Qed.
  Definition ct_mask (tr : list string * list R) : list R := lab_mask n (ct_lab m) (last (fst tr) EmptyString).
  Lemma ct_mask_ok tr s : (s < n)%nat -> vget (zipwith Rmult (vones n) (ct_mask tr)) s = fo tr s.
  Proof.
    intros Hs. unfold vget. nR. rewrite (nth_zipwith _ _ _ _ 0 0).
    - unfold vones. nR. rewrite (nth_indep _ 0 1) by (rewrite repeat_length; exact Hs). rewrite nth_repeat.
      change (nth s (ct_mask tr) 0) with (vget (ct_mask tr) s). unfold ct_mask. rewrite lab_mask_get by exact Hs. unfold tf. ring.
    - rewrite vones_length. exact Hs.
    - unfold ct_mask. rewrite lab_mask_length. exact Hs.
  Qed.
  Lemma ct_mask_len tr : length (zipwith Rmult (vones n) (ct_mask tr)) = n.
  Proof. rewrite zipwith_length, vones_length. unfold ct_mask. rewrite lab_mask_length. lia. Qed.

  Lemma pw_timed tr t : processWork_CTMC_timed m fixed tr t = if Req_EM_T (P tr) 0 then None else Some (cmk m fixed W fo tc tr t).
  Proof.
    destruct tr as [obs ts]. unfold processWork_CTMC_timed. change (combine (removelast obs) ts) with (ots (obs, ts)). rewrite ct_ws_eq.
    change (lab_mask n (ct_lab m) (last obs EmptyString)) with (ct_mask (obs, ts)). set (tr := (obs, ts)).
    rewrite (proba_model_mask n) by (auto using ct_ini_len; apply lab_mask_length).
    rewrite (tot_ext_f n a0 (W tr) (vget (ct_mask tr)) (fo tr)) by (intros; apply lab_mask_get; assumption).
    change (tot n a0 (W tr) (fo tr)) with (P tr).
    nR. unfold Reqb. destruct (Req_EM_T (P tr) 0) as [EZ|NZ]; [reflexivity|]. unfold cmk. f_equal. f_equal.
    - apply vbuild_ext. intros s Hs. rewrite col_init_mask.
      pose proof (gam_model n (ct_ini m) (zipwith Rmult (vones n) (ct_mask tr)) (W tr) s ct_ini_len (ct_mask_len tr) Hs) as G.
      rewrite (gam_ext_f n a0 (W tr) _ (fo tr)) in G by (auto; intros; apply ct_mask_ok; assumption). revert G. nR. intros ->.
      toR. rewrite rsum_sumL, sumL_map, sumL_scal_r. unfold wsum. rewrite rsum_sumL. reflexivity.
    - apply vbuild_ext. intros s Hs. apply vbuild_ext. intros s' Hs'. destruct (fixed_get fixed s s'); [reflexivity|].
      unfold stat_num. rewrite col_init_mask.
      pose proof (xi_model n (ct_ini m) (zipwith Rmult (vones n) (ct_mask tr)) (W tr) s s' ct_ini_len (ct_mask_len tr) Hs Hs') as G.
      rewrite (xi_ext_f n a0 (W tr) _ (fo tr)) in G by (auto; intros; apply ct_mask_ok; assumption). revert G. nR. intros G.
      rewrite <- ct_ws_eq in G at 2. rewrite map_map in G. unfold ct_w in G. revert G. nR. intros G.
      rewrite G. toR. rewrite rsum_sumL, sumL_map, sumL_scal_r. rewrite rsum_sumL. reflexivity.
  Qed.

  Variable set : list ((list string * list R) * Z).
  Notation XIf := (cXI m set W fo).
  Notation DEN := (cDEN m set W fo tc).
  Notation NUM := (cNUM m fixed set W fo).

  Hypothesis Hnn : nonneg_mat (ct_mat m).
  Hypothesis HT : pos_times set.

  Lemma t_HA (x : list string * list R) (t : Z) (o : string * R) : In (x, t) set -> In o (ots x) -> okw n (tA m o) /\ okf n (tb m o).
  Proof.
    intros _ _. split.
    - intros s s' _ _. apply mget_nonneg. exact Hnn.
    - intros s _. unfold tb. pose proof (exp_pos (- (exit_rate m s * snd o))). destruct (is_label_01 (ct_lab m) (fst o) s) as [-> | ->]; lra.
  Qed.
  Lemma t_oka : okf n a0. Proof. intros s Hs. apply vget_nonneg. apply Hwf. Qed.
  Lemma t_okf (x : list string * list R) (t : Z) : In (x, t) set -> okf n (fo x).
  Proof. intros _ s Hs. unfold tf. destruct (is_label_01 (ct_lab m) (last (fst x) EmptyString) s) as [-> | ->]; lra. Qed.
  Lemma t_okw x t : In (x, t) set -> Forall (okw n) (W x).
  Proof. apply (ew_okw n set ots). exact t_HA. Qed.
  Lemma t_P_nonneg x t : In (x, t) set -> 0 <= P x.
  Proof. apply (P_nonneg n set ots); [exact t_okf|exact t_oka|exact t_HA]. Qed.
  Lemma t_work x t : In (x, t) set -> processWork_CTMC_timed m fixed x t = if Req_EM_T (P x) 0 then None else Some (cmk m fixed W fo tc x t).
  Proof. intros _. apply pw_timed. Qed.

  (** dwell times are not negative *)
  Hypothesis Hdw : forall x t, In (x, t) set -> forall d, In d (snd x) -> 0 <= d.

  Lemma tc_nonneg x t y : In (x, t) set -> In y (tc x) -> 0 <= y.
  Proof.
    intros I Iy. apply in_map_iff in Iy. destruct Iy as [[o d] [<- Id]]. apply (Hdw x t I). apply in_combine_r in Id. exact Id.
  Qed.
  Lemma tXI_nonneg s s' : (s < n)%nat -> (s' < n)%nat -> 0 <= XIf s s'.
  Proof. intros. apply XI_nonneg; eauto using t_okw, t_okf, t_oka. intros x y I. apply (ones1_nonneg W x y I). Qed.
  Lemma tNUM_nonneg s s' : (s < n)%nat -> (s' < n)%nat -> 0 <= NUM s s'.
  Proof. intros. unfold cNUM. destruct (fixed_get _ _ _); [lra|]. apply tXI_nonneg; assumption. Qed.
  Lemma tDEN_nonneg s : (s < n)%nat -> 0 <= DEN s.
  Proof.
    intros Hs. apply psum_nonneg. intros x t I Px. apply Rmult_le_pos; [|apply Rlt_le, (fac_pos n set a0 W fo HT); auto].
    apply wsum_nonneg; [|intros y Iy; apply (tc_nonneg x t y I Iy)].
    intros y Iy. apply (gam_nonneg n a0 (W x) (fo x) s); eauto using t_okw, t_okf, t_oka.
  Qed.
  Lemma tXI_zero s s' : mget (ct_mat m) s s' = 0 -> XIf s s' = 0.
  Proof.
    intros Z. apply psum_zero. intros x t I Px. replace (wsum _ _) with 0; [ring|]. symmetry. unfold ones1. rewrite wsum_ones1 by apply xi_length.
    unfold tW, ew. generalize (fo x). intros g. generalize a0.
    clear - Z. induction (ots x) as [|ot l IH]; intros b; [reflexivity|]. cbn [map xi]. rewrite rsum_cons, IH. unfold tA.
    change (matR (ct_mat m) s s') with (mget (ct_mat m) s s'). rewrite Z. ring.
  Qed.
  Lemma tXI_supp s s' : 0 < XIf s s' -> 0 < mget (ct_mat m) s s'.
  Proof.
    intros Q. pose proof (mget_nonneg (ct_mat m) s s' Hnn) as B. destruct (Req_dec (mget (ct_mat m) s s') 0) as [E|E]; [rewrite tXI_zero in Q by assumption|]; lra.
  Qed.

  Variable m' : ctmc R.
  Hypothesis Hla' : ct_lab m' = ct_lab m.
  Hypothesis Hn' : ct_n m' = n.
  Hypothesis Hsq' : square n (ct_mat m').
  Hypothesis Hget : forall s s', (s < n)%nat -> (s' < n)%nat ->
       mget (ct_mat m') s s' = mget (ct_mat m) s s' * (if fixed_get fixed s s' then 1 else 0) + est (DEN s) (NUM s) (mget (ct_mat m) s) s'.

  Lemma t_get_nonneg' s s' : (s < n)%nat -> (s' < n)%nat -> 0 <= mget (ct_mat m') s s'.
  Proof.
    intros Hs Hs'. rewrite Hget by assumption. pose proof (mget_nonneg (ct_mat m) s s' Hnn) as B. apply Rplus_le_le_0_compat.
    - apply Rmult_le_pos; [exact B|]. destruct (fixed_get _ _ _); lra.
    - unfold est. destruct (Req_EM_T _ 0) as [|NZ]; [exact B|]. pose proof (tDEN_nonneg s Hs). pose proof (tNUM_nonneg s s' Hs Hs').
      unfold Rdiv. apply Rmult_le_pos; [assumption|]. apply Rlt_le, Rinv_0_lt_compat. lra.
  Qed.
  Lemma t_nonneg' : nonneg_mat (ct_mat m').
  Proof.
    intros r Ir x Ix. destruct Hsq' as [L1 L2]. pose proof (L2 r Ir) as L3. apply (In_nth _ _ []) in Ir. destruct Ir as [s [Hs E]].
    apply (In_nth _ _ 0) in Ix. destruct Ix as [s' [Hs' E2]]. subst x r. rewrite L1 in Hs. rewrite L3 in Hs'. apply (t_get_nonneg' s s'); assumption.
  Qed.
  Lemma t_zero' s s' : (s < n)%nat -> (s' < n)%nat -> mget (ct_mat m) s s' = 0 -> mget (ct_mat m') s s' = 0.
  Proof.
    intros Hs Hs' Z. rewrite Hget by assumption. unfold est, cNUM. rewrite (tXI_zero s s' Z), Z. destruct (Req_EM_T _ 0); [ring|].
    destruct (fixed_get _ _ _); unfold Rdiv; ring.
  Qed.
  Lemma t_supp' s s' : (s < n)%nat -> (s' < n)%nat -> 0 < XIf s s' -> 0 < mget (ct_mat m') s s'.
  Proof.
    intros Hs Hs' Q. pose proof (tXI_supp s s' Q) as B. rewrite Hget by assumption. pose proof (tDEN_nonneg s Hs) as D. unfold est, cNUM.
    destruct (fixed_get fixed s s').
    - destruct (Req_EM_T _ 0); [lra|]. unfold Rdiv. lra.
    - destruct (Req_EM_T _ 0) as [|NZ]; [lra|]. assert (0 < XIf s s' / DEN s); [|lra]. apply Rdiv_lt_0_compat; [exact Q|lra].
  Qed.
  Lemma t_exit (x : ctmc R) s : square n (ct_mat x) -> (s < n)%nat -> exit_rate x s = Sum n (mget (ct_mat x) s).
  Proof.
    intros [L1 L2] Hs. unfold exit_rate. rewrite rsum_nth, L2; [reflexivity|]. apply nth_In. rewrite L1. exact Hs.
  Qed.

  (** the dwell-time part of the gain *)
  Lemma t_emit_gain s : (s < n)%nat -> emit_gain n set ots fo a0 (tA m) (tb m) (tb m') s = - (exit_rate m' s - exit_rate m s) * DEN s.
  Proof.
    intros Hs. unfold emit_gain, cDEN, GA. rewrite (Rmult_comm _ (psum _ _ _ _ _ _)), <- psum_scal_r. apply psum_ext. intros x t I Px.
    transitivity (wsum (gam n a0 (W x) (fo x) s) (tc x) * - (exit_rate m' s - exit_rate m s) * fac n a0 W fo x t); [|ring]. f_equal.
    change (ew ots (tA m) (tb m) x) with (W x). unfold tc, tW, ew. generalize (fo x). intros g. generalize a0.
    clear - Hs Hla'. induction (ots x) as [|ot l IH]; intros b; [cbn; ring|]. cbn [map gam]. rewrite !wsum_cons, IH.
    rewrite Rmult_plus_distr_r. f_equal.
    destruct (is_label_01 (ct_lab m) (fst ot) s) as [Z|Z].
    - cbn [Bk]. replace (Sum n _) with 0; [ring|]. symmetry. apply Sum_zero_ext. intros s' Hs'. unfold tb. rewrite Z. ring.
    - replace (ln (tb m' ot s / tb m ot s)) with (- (exit_rate m' s - exit_rate m s) * snd ot); [ring|].
      unfold tb. rewrite Hla', Z, !Rmult_1_l. unfold Rdiv. rewrite <- exp_Ropp, <- exp_plus, ln_exp. ring.
  Qed.
  Lemma t_trans_gain s s' : (s < n)%nat -> (s' < n)%nat ->
    trans_gain n set ots fo a0 (tA m) (tb m) (tA m') s s' = XIf s s' * ln (mget (ct_mat m') s s' / mget (ct_mat m) s s').
  Proof.
    intros Hs Hs'. unfold trans_gain, cXI, XI. rewrite <- psum_scal_r. apply psum_ext. intros x t I Px.
    change (ew ots (tA m) (tb m) x) with (W x). unfold tA. unfold ones1. rewrite wsum_ones1 by apply xi_length.
    rewrite (wsum_const _ _ (ln (matR (ct_mat m') s s' / matR (ct_mat m) s s'))).
    - change matR with (@mget R RNum). change (ew ots (tA m) (tb m)) with W. rewrite !Rmult_assoc. f_equal. apply Rmult_comm.
    - intros y Iy. apply in_map_iff in Iy. destruct Iy as [o [<- _]]. reflexivity.
    - rewrite map_length, xi_length. unfold tW. rewrite ew_length. lia.
  Qed.

  Lemma ln_lower x : 0 < x -> 1 - / x <= ln x.
  Proof.
    intros Hx. pose proof (exp_ineq1_le (ln (/ x))) as H. rewrite exp_ln in H by (apply Rinv_0_lt_compat; exact Hx). rewrite ln_Rinv in H by exact Hx. lra.
  Qed.
  Lemma t_entry_gain s s' : (s < n)%nat -> (s' < n)%nat ->
    DEN s * (sqrt (mget (ct_mat m') s s') - sqrt (mget (ct_mat m) s s')) ^ 2 <=
    XIf s s' * ln (mget (ct_mat m') s s' / mget (ct_mat m) s s') - (mget (ct_mat m') s s' - mget (ct_mat m) s s') * DEN s.
  Proof.
    intros Hs Hs'. pose proof (tXI_nonneg s s' Hs Hs') as X0. pose proof (tDEN_nonneg s Hs) as D0. pose proof (mget_nonneg (ct_mat m) s s' Hnn) as B.
    set (r := mget (ct_mat m) s s') in *. set (X := XIf s s') in *. set (D := DEN s) in *.
    assert (G : mget (ct_mat m') s s' = r * (if fixed_get fixed s s' then 1 else 0) + (if Req_EM_T D 0 then r else (if fixed_get fixed s s' then 0 else X) / D)).
    { rewrite Hget by assumption. reflexivity. }
    rewrite G. clear G. pose proof (sqrt_sqrt r B) as Qr.
    destruct (fixed_get fixed s s'); destruct (Req_EM_T D 0) as [E|E].
    - rewrite E. rewrite !Rmult_0_l, Rmult_0_r. destruct (Req_dec X 0) as [EX|NX]; [rewrite EX; lra|].
      assert (Xp : 0 < X) by lra. assert (rp : 0 < r) by (apply (tXI_supp s s'); exact Xp).
      replace ((r * 1 + r) / r) with 2 by (field; lra). assert (0 < ln 2) by (rewrite <- ln_1; apply ln_increasing; lra). nra.
    - replace (r * 1 + 0 / D) with r by (field; lra). replace (sqrt r - sqrt r) with 0 by ring. destruct (Req_dec X 0) as [EX|NX]; [rewrite EX; lra|].
      assert (Xp : 0 < X) by lra. assert (rp : 0 < r) by (apply (tXI_supp s s'); exact Xp).
      replace (r / r) with 1 by (field; lra). rewrite ln_1. lra.
    - rewrite E. replace (r * 0 + r) with r by ring. destruct (Req_dec X 0) as [EX|NX]; [rewrite EX; lra|].
      assert (Xp : 0 < X) by lra. assert (rp : 0 < r) by (apply (tXI_supp s s'); exact Xp).
      replace (r / r) with 1 by (field; lra). rewrite ln_1. lra.
    - replace (r * 0 + X / D) with (X / D) by ring. assert (Dp : 0 < D) by lra.
      assert (Q : 0 <= X / D) by (apply Rmult_le_pos; [exact X0|apply Rlt_le, Rinv_0_lt_compat; exact Dp]).
      pose proof (sqrt_sqrt _ Q) as Qx. replace ((X / D - r) * D) with (X - r * D) by (field; lra).
      replace (D * (sqrt (X / D) - sqrt r) ^ 2) with (D * (2 * (X / D) - 2 * (sqrt (X / D) * sqrt r)) - (X - r * D)).
      2:{ replace (X - r * D) with ((sqrt (X / D) * sqrt (X / D) - sqrt r * sqrt r) * D) by (rewrite Qx, Qr; field; lra).
          replace (2 * (X / D)) with (2 * (sqrt (X / D) * sqrt (X / D))) by (rewrite Qx; reflexivity). ring. }
      apply Rplus_le_compat_r. destruct (Req_dec X 0) as [EX|NX].
      + rewrite EX. unfold Rdiv. rewrite !Rmult_0_l, sqrt_0. lra.
      + assert (Xp : 0 < X) by lra. assert (rp : 0 < r) by (apply (tXI_supp s s'); exact Xp).
        pose proof (entry_gain (X / D) r (Rdiv_lt_0_compat _ _ Xp Dp) rp) as G. apply (Rmult_le_compat_l D) in G; [|lra].
        replace (X * ln (X / D / r)) with (D * (X / D * ln (X / D / r))) by (field; lra). exact G.
  Qed.

  Hypothesis Hin' : ct_ini m' = ct_ini m.

  Lemma t_suppx x t k d s s' : In (x, t) set -> 0 < P x -> (k < length (ots x))%nat -> (s < n)%nat -> (s' < n)%nat ->
    0 < nth k (xi n a0 (W x) (fo x) s s') 0 -> 0 < tA m' (nth k (ots x) d) s s' /\ 0 < tb m' (nth k (ots x) d) s.
  Proof.
    intros I Px Hk Hs Hs' Pk.
    destruct (xi_factors n set ots fo a0 (tA m) (tb m) t_okf t_oka t_HA x t k d s s' I Hk Hs Hs' Pk) as [Pe Pb]. split.
    + apply t_supp'; try assumption. apply (XI_pos n set a0 W fo HT) with (x := x) (t := t) (k := k); auto using t_oka; try (intros; eauto using t_okw, t_okf; fail).
      * intros y z Iz. apply (ones1_nonneg W y z Iz).
      * unfold tW. rewrite ew_length. exact Hk.
      * unfold ones1. rewrite nth_indep with (d' := 1) by (rewrite repeat_length; unfold tW; rewrite ew_length; assumption). rewrite nth_repeat. lra.
    + unfold tb in *. rewrite Hla'. pose proof (exp_pos (- (exit_rate m' s * snd (nth k (ots x) d)))).
      destruct (is_label_01 (ct_lab m) (fst (nth k (ots x) d)) s) as [Z|Z]; rewrite Z in *; lra.
  Qed.


  Definition ct_change : R := Sum n (fun s => DEN s * sqdist n (mget (ct_mat m) s) (mget (ct_mat m') s)).
  Lemma t_em_gain : set_ll P set + ct_change <= set_ll (Pof n a0 (tW m') fo) set /\
    (forall tr t, In (tr, t) set -> (0 < P tr <-> 0 < Pof n a0 (tW m') fo tr)).
  Proof.
    apply (em_gain n set ots fo a0 (tA m) (tb m) a0 (tA m') (tb m') HT t_okf t_oka t_oka t_HA).
    - intros x t o _ _. split; [intros s s' Hs Hs'; apply t_get_nonneg'; assumption|]. intros s Hs. unfold tb. pose proof (exp_pos (- (exit_rate m' s * snd o))).
      destruct (is_label_01 (ct_lab m') (fst o) s) as [-> | ->]; lra.
    - exact t_suppx.
    - intros x t o s s' I Io Hs Hs' Z. apply Rmult_integral in Z. unfold tb in *. pose proof (exp_pos (- (exit_rate m s * snd o))). destruct Z as [Z|Z].
      + rewrite Hla'. apply Rmult_integral in Z. destruct Z as [Z|Z]; [rewrite Z; ring|lra].
      + unfold tA in *. change (matR (ct_mat m') s s') with (mget (ct_mat m') s s'). rewrite t_zero' by assumption. ring.
    - auto.
    - intros s Hs Q. apply (IN_supp n set a0 W fo) in Q; auto using t_oka.
    - fold (tW m). rewrite (ini_same_gain n set a0 W fo), Rplus_0_l.
      rewrite <- Sum_plus. apply Sum_le. intros s Hs. rewrite t_emit_gain by exact Hs.
      rewrite (Sum_ext n (fun s' => trans_gain n set ots fo a0 (tA m) (tb m) (tA m') s s') (fun s' => XIf s s' * ln (mget (ct_mat m') s s' / mget (ct_mat m) s s'))) by (intros; apply t_trans_gain; assumption).
      rewrite (t_exit m' s Hsq' Hs), (t_exit m s) by (auto; apply Hwf).
      rewrite <- Sum_minus.
      replace (- Sum n (fun i => mget (ct_mat m') s i - mget (ct_mat m) s i) * DEN s) with (Sum n (fun i => - ((mget (ct_mat m') s i - mget (ct_mat m) s i) * DEN s))).
      2:{ rewrite <- Ropp_mult_distr_l, <- Sum_scal_r, <- Sum_opp. reflexivity. }
      rewrite <- Sum_plus. unfold sqdist. rewrite <- Sum_scal_l. apply Sum_le. intros s' Hs'. pose proof (t_entry_gain s s' Hs Hs'). lra.
  Qed.
  Lemma ct_change_nonneg : 0 <= ct_change.
  Proof. apply Sum_nonneg. intros s Hs. apply Rmult_le_pos; [apply tDEN_nonneg; exact Hs|apply sqdist_nonneg]. Qed.
  Lemma t_em_mono : set_ll P set <= set_ll (Pof n a0 (tW m') fo) set /\
    (forall tr t, In (tr, t) set -> (0 < P tr <-> 0 < Pof n a0 (tW m') fo tr)).
  Proof. destruct t_em_gain as [H1 H2]. pose proof ct_change_nonneg. split; [lra|exact H2]. Qed.
  Lemma t_okw' x t : In (x, t) set -> Forall (okw n) (tW m' x).
  Proof.
    intros I. apply (ew_okw n set ots (tA m') (tb m')) with (t := t); [|exact I]. intros y u o _ _.
    split; [intros s s' Hs Hs'; apply t_get_nonneg'; assumption|]. intros s Hs. unfold tb. pose proof (exp_pos (- (exit_rate m' s * snd o))).
    destruct (is_label_01 (ct_lab m') (fst o) s) as [-> | ->]; lra.
  Qed.
  (** states with positive expected time keep a positive expected time *)
  Lemma t_DEN_pos s : (s < n)%nat -> 0 < DEN s -> 0 < cDEN m' set (tW m') (tf m') tc s.
  Proof.
    intros Hs Q. unfold cDEN. rewrite Hn', Hin'. replace (tf m') with fo by (unfold tf; rewrite Hla'; reflexivity).
    apply (GA_pos_supp n set a0 a0 W (tW m') fo tc s HT Hs); eauto using t_okw, t_okw', t_okf, t_oka.
    - intros x t I Px. split; [apply t_em_mono with (t := t); assumption|].
      apply (ew_supp n set ots fo a0 (tA m) (tb m) (tA m') (tb m')) with (t := t); auto. exact t_suppx.
    - intros. eapply tc_nonneg; eauto.
  Qed.
End Timed.
