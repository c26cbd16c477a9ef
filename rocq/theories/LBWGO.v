(** Baum-Welch on hidden Markov models with Gaussian outputs. *)
From Coq Require Import String ZArith Bool Reals List Lia Lra Psatz FunctionalExtensionality.
From Verif Require Import Num Py SNum SPath LSum MSet MModels MLik MBW LFB LEM SBW LBW LBWSet LBWMC SLik LLik LEMGen.
Import ListNotations.
Local Open Scope R_scope.

(** ** The forward and backward tables only read the weights between states *)
Definition agree (n : nat) (w w' : nat -> nat -> R) : Prop := forall i j, (i < n)%nat -> (j < n)%nat -> w i j = w' i j.
Lemma fstep_ext n (a : list R) w w' : agree n w w' -> fstep n a w = fstep n a w'.
Proof.
  intros A. unfold fstep. apply vbuild_ext. intros s Hs. f_equal. apply vbuild_ext. intros ss Hss. apply A; assumption.
Qed.
Lemma bw_alphas_ext n ws ws' : Forall2 (agree n) ws ws' -> forall a : list R, bw_alphas n a ws = bw_alphas n a ws'.
Proof. induction 1 as [|w w' l l' A F IH]; intros a; cbn; [reflexivity|]. rewrite (fstep_ext n a w w' A), IH. reflexivity. Qed.
Lemma bw_betas_ext n ws ws' : Forall2 (agree n) ws ws' -> forall f : list R, bw_betas n f ws = bw_betas n f ws'.
Proof.
  induction 1 as [|w w' l l' A F IH]; intros f; cbn; [reflexivity|]. rewrite IH. f_equal. apply vbuild_ext. intros s Hs. f_equal.
  apply vbuild_ext. intros ss Hss. apply A; assumption.
Qed.

(** ** The normal density *)
Definition lnN (mu sigma x : R) : R := - ((x - mu) ^ 2 / (2 * sigma ^ 2)) - ln (sqrt (2 * PI)) - ln sigma.
Lemma sqrt_2pi_sigma sigma : 0 < sigma -> sqrt (2 * PI * sigma ^ 2) = sqrt (2 * PI) * sigma.
Proof. intros P. rewrite (sqrt_mult (2 * PI) (sigma ^ 2)) by (pose proof PI_RGT_0; nra). rewrite sqrt_pow2 by lra. reflexivity. Qed.
Lemma sqrt_2pi_pos : 0 < sqrt (2 * PI). Proof. apply sqrt_lt_R0. pose proof PI_RGT_0; lra. Qed.
Lemma normal_pos mu sigma x : 0 < sigma -> 0 < normal mu sigma x.
Proof.
  intros P. unfold normal. rewrite sqrt_2pi_sigma by exact P. apply Rdiv_lt_0_compat; [apply exp_pos|]. apply Rmult_lt_0_compat; [apply sqrt_2pi_pos|exact P].
Qed.
Lemma ln_normal mu sigma x : 0 < sigma -> ln (normal mu sigma x) = lnN mu sigma x.
Proof.
  intros P. unfold normal, Rdiv at 1. rewrite sqrt_2pi_sigma by exact P. pose proof sqrt_2pi_pos as Q.
  assert (0 < sqrt (2 * PI) * sigma) by (apply Rmult_lt_0_compat; assumption).
  rewrite ln_mult; [|apply exp_pos|apply Rinv_0_lt_compat; assumption]. rewrite ln_exp, ln_Rinv, ln_mult by assumption. unfold lnN. ring.
Qed.
Lemma prod_pos (f : nat -> R) l : (forall k, In k l -> 0 < f k) -> 0 < fold_right Rmult 1 (map f l).
Proof. induction l as [|k l IH]; intros H; cbn; [lra|]. apply Rmult_lt_0_compat; [apply H; left; reflexivity|apply IH; intros; apply H; right; assumption]. Qed.
Lemma ln_prod (f : nat -> R) l : (forall k, In k l -> 0 < f k) -> ln (fold_right Rmult 1 (map f l)) = sumL l (fun k => ln (f k)).
Proof.
  induction l as [|k l IH]; intros H; cbn; [apply ln_1|].
  assert (Hl : forall j, In j l -> 0 < f j) by (intros; apply H; right; assumption).
  rewrite ln_mult; [|apply H; left; reflexivity|apply prod_pos; exact Hl]. rewrite IH by exact Hl. reflexivity.
Qed.
Lemma go_density_pos d (m : gohmm R) o s : pos_sigma d m -> (s < go_n m)%nat -> length o = d -> 0 < go_density m o s.
Proof. intros P Hs L. unfold go_density. apply prod_pos. intros k I. apply in_seq in I. apply normal_pos. apply P; [exact Hs|lia]. Qed.
Lemma ln_go_density d (m : gohmm R) o s : pos_sigma d m -> (s < go_n m)%nat -> length o = d ->
  ln (go_density m o s) = Sum d (fun k => lnN (mean m s k) (stddev m s k) (nth k o 0)).
Proof.
  intros P Hs L. unfold go_density. rewrite ln_prod.
  - rewrite L. unfold Sum. apply sumL_ext. intros k I. apply in_seq in I. apply ln_normal. apply P; [exact Hs|lia].
  - intros k I. apply in_seq in I. apply normal_pos. apply P; [exact Hs|lia].
Qed.

Section GOfit.
  Variable m : gohmm R.
  Variable d : nat.
  Notation n := (go_n m).
  Notation a0 := (vget (go_ini m)).
  Definition gW (m : gohmm R) : list (list R) -> list (nat -> nat -> R) := ew (fun tr => tr) (fun _ : list R => matR (go_mat m)) (go_density m).
  Notation W := (gW m).
  Notation fo := (fun (_ : list (list R)) (_ : nat) => 1).
  Notation P := (Pof n a0 W fo).
  Hypothesis Hwf : wf_gohmm d m.
  Hypothesis Hsg : pos_sigma d m.

  Lemma go_ini_len : length (go_ini m) = n. Proof. apply Hwf. Qed.
  Lemma go_ws_agree tr : (forall o, In o tr -> length o = d) -> Forall2 (agree n) (map (fun o ss s => go_tau m ss s o) tr) (W tr).
  Proof.
    intros Hd. unfold gW, ew. apply Forall2_map_in. intros o I i j Hi Hj. unfold go_tau. nR.
    rewrite (go_b_density m i o d) by (auto; rewrite (Hd o I); lia). change (mget (go_mat m) i j) with (matR (go_mat m) i j). ring.
  Qed.

  Definition gmk (tr : list (list R)) (t : Z) : stat_go :=
    let c := IZR t / P tr in
    mkStatGO
      (vbuild n (fun s => rsum (gam n a0 (W tr) (fun _ => 1) s) * c))
      (vbuild n (fun s => vbuild n (fun s' => rsum (xi n a0 (W tr) (fun _ => 1) s s') * c)))
      (vbuild n (fun s => vbuild d (fun k => wsum (gam n a0 (W tr) (fun _ => 1) s) (map (fun o => vget o k) tr) * c)))
      (vbuild n (fun s => vbuild d (fun k => wsum (gam n a0 (W tr) (fun _ => 1) s) (map (fun o => (vget o k - mean m s k) * (vget o k - mean m s k)) tr) * c)))
      (P tr) t
      (vbuild n (fun s => a0 s * Bk n (W tr) (fun _ => 1) s * c)).

  Lemma pw_go tr t : (forall o, In o tr -> length o = d) ->
    processWork_GoHMM m d tr t = if Req_EM_T (P tr) 0 then None else Some (gmk tr t).
  Proof.
    intros Hd. unfold processWork_GoHMM. rewrite (bw_alphas_ext n _ _ (go_ws_agree tr Hd)), (bw_betas_ext n _ _ (go_ws_agree tr Hd)).
    rewrite (proba_model n (go_ini m) (W tr) go_ini_len).
    change (tot n a0 (W tr) (fun _ => 1)) with (P tr).
    nR. unfold Reqb. destruct (Req_EM_T (P tr) 0) as [EZ|NZ]; [reflexivity|]. unfold gmk.
    assert (G : forall s, (s < n)%nat -> zipwith Rmult (col_init (bw_alphas n (go_ini m) (W tr)) s) (col_init (bw_betas n (vones n) (W tr)) s) = gam n a0 (W tr) (fun _ => 1) s).
    { intros s Hs. rewrite gam_model by (auto using go_ini_len, vones_length). apply gam_ext_f; [|exact Hs]. intros; apply vget_vones; assumption. }
    f_equal. f_equal.
    - apply vbuild_ext. intros s Hs. rewrite (stat_den_spec n) by (auto using go_ini_len, vones_length). f_equal. f_equal.
      apply gam_ext_f; [|exact Hs]. intros; apply vget_vones; assumption.
    - apply vbuild_ext. intros s Hs. apply vbuild_ext. intros s' Hs'.
      rewrite (stat_num_spec n); auto using go_ini_len, vones_length.
      + f_equal. f_equal. apply xi_ext_f; [|exact Hs']. intros; apply vget_vones; assumption.
      + unfold gW, ew. rewrite map_map. apply map_ext_in. intros o I. unfold go_tau. nR.
        rewrite (go_b_density m s o d) by (auto; rewrite (Hd o I); lia). change (mget (go_mat m) s s') with (matR (go_mat m) s s'). ring.
    - apply vbuild_ext. intros s Hs. apply vbuild_ext. intros k Hk. rewrite G by exact Hs. toR.
      rewrite rsum_sumL, sumL_map, sumL_scal_r. unfold wsum. rewrite rsum_sumL. reflexivity.
    - apply vbuild_ext. intros s Hs. apply vbuild_ext. intros k Hk. rewrite G by exact Hs. toR.
      rewrite rsum_sumL, sumL_map, sumL_scal_r. unfold wsum. rewrite rsum_sumL. reflexivity.
    - rewrite bw_alphas_hd. set (B := hd [] _). assert (LB : length B = n) by (apply bw_betas_hd_length, vones_length).
      assert (HB : forall s, (s < n)%nat -> vget B s = Bk n (W tr) (fun _ => 1) s).
      { intros s Hs. unfold B. rewrite bw_betas_hd by (auto using vones_length). apply Bk_ext; [|exact Hs]. intros; apply vget_vones; assumption. }
      rewrite (vbuild_ext n _ (fun s => a0 s * vget B s * (IZR t / P tr))) by (intros s Hs; rewrite (HB s Hs); reflexivity).
      rewrite <- (vbuild_eta (map _ (zipwith _ _ _))).
      assert (Lz : length (zipwith Rmult (go_ini m) B) = n) by (rewrite zipwith_length, go_ini_len, LB; lia).
      rewrite map_length, Lz. apply vbuild_ext. intros s Hs. unfold vget at 1. nR. rewrite (nth_map_in _ _ _ 0) by (rewrite Lz; exact Hs).
      rewrite (nth_zipwith _ _ _ _ 0 0) by (rewrite ?go_ini_len, ?LB; exact Hs). reflexivity.
  Qed.

  Variable set : list (list (list R) * Z).
  Hypothesis Hd : forall x t, In (x, t) set -> forall o, In o x -> length o = d.
  Definition gNUM := XI n set a0 W fo (ones1 W).
  Definition gDEN := GA n set a0 W fo (ones1 W).
  Definition gSUM (s k : nat) (h : R -> R) : R := GA n set a0 W fo (fun tr => map (fun o => h (nth k o 0)) tr) s.
  Definition gIN := IN n set a0 W fo.

  Hypothesis Hnn : nonneg_mat (go_mat m).
  Hypothesis HT : pos_times set.

  Lemma g_HA (x : list (list R)) (t : Z) (o : list R) : In (x, t) set -> In o x -> okw n (matR (go_mat m)) /\ okf n (go_density m o).
  Proof.
    intros I Io. split.
    - intros s s' _ _. apply mget_nonneg. apply Hnn.
    - intros s Hs. apply Rlt_le. apply (go_density_pos d); eauto.
  Qed.
  Lemma g_oka : okf n a0. Proof. intros s Hs. apply vget_nonneg. apply Hwf. Qed.
  Lemma g_okf (x : list (list R)) (t : Z) : In (x, t) set -> okf n (fo x). Proof. intros _ s Hs. lra. Qed.
  Lemma g_okw x t : In (x, t) set -> Forall (okw n) (W x).
  Proof. apply (ew_okw n set (fun tr => tr)). exact g_HA. Qed.
  Lemma g_P_nonneg x t : In (x, t) set -> 0 <= P x.
  Proof. apply (P_nonneg n set (fun tr => tr)); [exact g_okf|exact g_oka|exact g_HA]. Qed.
  Lemma g_work x t : In (x, t) set -> processWork_GoHMM m d x t = if Req_EM_T (P x) 0 then None else Some (gmk x t).
  Proof. intros I. apply pw_go. exact (Hd x t I). Qed.

  Lemma round_GoHMM_spec p m' ll : round_GoHMM p d set m = Ok (m', ll) ->
    go_name m' = go_name m /\ go_n m' = n /\ square n (go_mat m') /\
    length (go_out m') = n /\ (forall r, In r (go_out m') -> length r = d) /\ length (go_ini m') = n /\
    (forall s s', (s < n)%nat -> (s' < n)%nat -> mget (go_mat m') s s' = est (gDEN s) (gNUM s) (mget (go_mat m) s) s') /\
    (forall s k, (s < n)%nat -> (k < d)%nat -> mean m' s k = if Req_EM_T (gDEN s) 0 then mean m s k else gSUM s k (fun x => x) / gDEN s) /\
    (forall s k, (s < n)%nat -> (k < d)%nat -> stddev m' s k =
       sqrt (if Req_EM_T (gDEN s) 0 then stddev m s k else gSUM s k (fun x => (x - mean m s k) * (x - mean m s k)) / gDEN s)) /\
    (forall s, (s < n)%nat -> vget (go_ini m') s = gIN s / Sum n gIN) /\
    ll = set_ll P set /\ (exists tr t, In (tr, t) set /\ 0 < P tr).
  Proof.
    unfold round_GoHMM, update_GoHMM. destruct (unwrap _) as [temp|] eqn:E; [|discriminate]. apply unwrap_run in E. cbn [bind]. subst temp.
    destruct (goods (processWork_GoHMM m d) set) as [|g0 gs] eqn:G; [discriminate|]. rewrite <- G.
    intros H. inversion H as [[H1 H2]]. clear H. cbn [go_ini go_name go_mat go_out].
    assert (NE : goods (processWork_GoHMM m d) set <> []) by (rewrite G; discriminate).
    destruct (goods_vsum n set a0 W fo _ gmk g_work g_P_nonneg sg_den n NE) as [_ Ed]; [intros; apply vbuild_length|].
    destruct (goods_vsum n set a0 W fo _ gmk g_work g_P_nonneg sg_init n NE) as [Li Ei]; [intros; apply vbuild_length|].
    pose proof (goods_msum n set a0 W fo _ gmk g_work g_P_nonneg sg_num_a n n NE (fun x t => shaped_vbuild n n _)) as Ea.
    pose proof (goods_msum n set a0 W fo _ gmk g_work g_P_nonneg sg_mu n d NE (fun x t => shaped_vbuild n d _)) as Em.
    pose proof (goods_msum n set a0 W fo _ gmk g_work g_P_nonneg sg_va n d NE (fun x t => shaped_vbuild n d _)) as Ev.
    assert (Dd : forall s, (s < n)%nat -> vget (vsum_all (map sg_den (goods (processWork_GoHMM m d) set))) s = gDEN s).
    { intros s Hs. rewrite Ed by exact Hs. apply psum_ext. intros x t I Px. cbn [gmk sg_den]. rewrite vget_vbuild by exact Hs.
      unfold ones1. rewrite wsum_ones1 by apply gam_length. reflexivity. }
    assert (Di : forall s, (s < n)%nat -> vget (vsum_all (map sg_init (goods (processWork_GoHMM m d) set))) s = gIN s).
    { intros s Hs. rewrite Ei by exact Hs. apply psum_ext. intros x t I Px. cbn [gmk sg_init]. rewrite vget_vbuild by exact Hs. reflexivity. }
    split; [reflexivity|].
    split; [unfold go_n at 1; cbn [go_mat]; apply vbuild_length|]. split; [apply new_matrix_square|].
    split; [apply vbuild_length|]. split.
    { intros r Ir. apply in_map_iff in Ir. destruct Ir as [s [<- _]]. apply vbuild_length. }
    split; [apply vbuild_length|]. split; [|split; [|split; [|split; [|split]]]].
    - intros s s' Hs Hs'. rewrite new_matrix_get by assumption. unfold est. rewrite Dd by exact Hs. rewrite Ea by assumption.
      destruct (Req_EM_T _ 0); [reflexivity|]. f_equal. apply psum_ext. intros x t I Px. cbn [gmk sg_num_a]. rewrite mget_vbuild by assumption.
      unfold ones1. rewrite wsum_ones1 by apply xi_length. reflexivity.
    - intros s k Hs Hk. unfold mean at 1. cbn [go_out]. rewrite vbuild_nth by exact Hs. rewrite vbuild_nth by exact Hk. nR. rewrite Dd by exact Hs.
      unfold Reqb. destruct (Req_EM_T (gDEN s) 0); cbn [fst]; [unfold mean, go_param, Rdiv; rewrite Rinv_1; nR; ring|].
      rewrite Em by assumption. f_equal. apply psum_ext. intros x t I Px. cbn [gmk sg_mu]. rewrite mget_vbuild by assumption. reflexivity.
    - intros s k Hs Hk. unfold stddev at 1. cbn [go_out]. rewrite vbuild_nth by exact Hs. rewrite vbuild_nth by exact Hk. nR. rewrite Dd by exact Hs.
      unfold Reqb. destruct (Req_EM_T (gDEN s) 0); cbn [snd]; [unfold stddev, go_param, Rdiv; rewrite Rinv_1; nR; f_equal; ring|].
      rewrite Ev by assumption. f_equal. f_equal. apply psum_ext. intros x t I Px. cbn [gmk sg_va]. rewrite mget_vbuild by assumption. reflexivity.
    - intros s Hs. rewrite vget_vbuild by exact Hs. nR. rewrite Di by exact Hs. f_equal. rewrite nsum_rsum, rsum_nth, Li. apply Sum_ext.
      intros i Hi. apply Di. exact Hi.
    - apply (goods_ll n set a0 W fo _ gmk g_work g_P_nonneg). reflexivity.
    - apply (goods_pos n set a0 W fo _ gmk g_work g_P_nonneg). exact NE.
  Qed.

  (** ** Consequences *)
  Lemma gNUM_nonneg s s' : (s < n)%nat -> (s' < n)%nat -> 0 <= gNUM s s'.
  Proof. intros. apply XI_nonneg; eauto using g_okw, g_okf, g_oka. intros x y I. apply repeat_spec in I. lra. Qed.
  Lemma gDEN_sum s : (s < n)%nat -> gDEN s = Sum n (gNUM s).
  Proof. intros Hs. apply GA_XI. exact Hs. Qed.
  Lemma gDEN_nonneg s : (s < n)%nat -> 0 <= gDEN s.
  Proof. intros Hs. rewrite gDEN_sum by exact Hs. apply Sum_nonneg; intros; apply gNUM_nonneg; assumption. Qed.
  Lemma gNUM_zero s s' : matR (go_mat m) s s' = 0 -> gNUM s s' = 0.
  Proof.
    intros Z. apply XI_zero. intros x t k _ _. clear - Z. apply xi_nth_zero. unfold gW, ew. revert k. induction x as [|o l IH]; intros [|k]; cbn; auto. rewrite Z. ring.
  Qed.
  Lemma gNUM_supp s s' : 0 < gNUM s s' -> 0 < matR (go_mat m) s s'.
  Proof.
    intros Q. pose proof (mget_nonneg (go_mat m) s s' Hnn) as B. change (mget (go_mat m) s s') with (matR (go_mat m) s s') in B.
    destruct (Req_dec (matR (go_mat m) s s') 0) as [E|E]; [rewrite gNUM_zero in Q by exact E|]; lra.
  Qed.
  (** [gSUM] is a linear form. *)
  Lemma gSUM_ext s k h h' : (forall x, h x = h' x) -> gSUM s k h = gSUM s k h'.
  Proof. intros H. apply psum_ext. intros x t I Px. f_equal. f_equal. apply map_ext. intros; apply H. Qed.
  Lemma wsum_map_plus {O} l (h h' : O -> R) (tr : list O) : wsum l (map (fun o => h o + h' o) tr) = wsum l (map h tr) + wsum l (map h' tr).
  Proof. revert l. induction tr as [|o tr IH]; intros [|y l]; cbn [map]; try (cbn; ring). rewrite !wsum_cons, IH. ring. Qed.
  Lemma gSUM_plus s k h h' : gSUM s k (fun x => h x + h' x) = gSUM s k h + gSUM s k h'.
  Proof.
    unfold gSUM, GA. rewrite <- psum_plus. apply psum_ext. intros x t I Px. rewrite wsum_map_plus. ring.
  Qed.
  Lemma gSUM_scal s k h c : gSUM s k (fun x => h x * c) = gSUM s k h * c.
  Proof.
    unfold gSUM, GA. rewrite <- psum_scal_r. apply psum_ext. intros x t I Px. rewrite wsum_scal_r. ring.
  Qed.
  Lemma gSUM_const s k c : gSUM s k (fun _ => c) = gDEN s * c.
  Proof.
    unfold gSUM, gDEN, GA. rewrite <- psum_scal_r. apply psum_ext. intros x t I Px.
    rewrite (wsum_const _ _ c). 2: { intros y Iy. apply in_map_iff in Iy. destruct Iy as [o [<- _]]. reflexivity. }
    2: { rewrite gam_length, map_length. unfold gW. rewrite ew_length. lia. }
    unfold ones1. rewrite wsum_ones1 by apply gam_length. ring.
  Qed.
  Lemma gSUM_nonneg s k h : (s < n)%nat -> (forall x, 0 <= h x) -> 0 <= gSUM s k h.
  Proof.
    intros Hs Hh. unfold gSUM. rewrite GA_XI by exact Hs. apply Sum_nonneg. intros s' Hs'. apply XI_nonneg; auto using g_oka. 1-2: intros; eauto using g_okw, g_okf.
    intros x y I. apply in_map_iff in I. destruct I as [o [<- _]]. apply Hh.
  Qed.
  Lemma gSUM_le s k h h' : (s < n)%nat -> (forall x, h x <= h' x) -> gSUM s k h <= gSUM s k h'.
  Proof.
    intros Hs Hh. assert (0 <= gSUM s k (fun x => h' x + h x * -1)) by (apply gSUM_nonneg; auto; intros x; specialize (Hh x); lra).
    rewrite gSUM_plus, gSUM_scal in H. lra.
  Qed.
  Lemma gSUM_zero s k h : (s < n)%nat -> gDEN s = 0 -> gSUM s k h = 0.
  Proof.
    intros Hs Z. apply psum_zero. intros x t I Px.
    assert (T0 : wsum (gam n a0 (W x) (fun _ => 1) s) (ones1 W x) * fac n a0 W fo x t = 0).
    { apply (psum_eq0 n set a0 W fo (fun x t => wsum (gam n a0 (W x) (fun _ => 1) s) (ones1 W x) * fac n a0 W fo x t)); auto.
      intros y u J Py. apply Rmult_le_pos; [|apply Rlt_le, (fac_pos n set a0 W fo HT); auto].
      apply wsum_nonneg; [|intros z Iz; apply repeat_spec in Iz; lra]. intros z Iz. apply (gam_nonneg n a0 (W y) (fun _ => 1) s); eauto using g_oka, g_okw. intros i Hi; lra. }
    pose proof (fac_pos n set a0 W fo HT x t I Px) as Fp. apply Rmult_integral in T0. destruct T0 as [T0|T0]; [|lra].
    unfold ones1 in T0. rewrite wsum_ones1 in T0 by apply gam_length.
    rewrite wsum_zero; [ring|]. intros i. destruct (Nat.lt_ge_cases i (length (gam n a0 (W x) (fun _ => 1) s))) as [Hi|Hi]; [|apply nth_overflow; exact Hi].
    rewrite rsum_nth in T0. apply (Sum_eq0 _ (fun j => nth j (gam n a0 (W x) (fun _ => 1) s) 0)) with (i := i) in T0; auto.
    intros j Hj. apply (gam_nonneg n a0 (W x) (fun _ => 1) s); eauto using g_oka, g_okw; [intros y Hy; lra|]. apply nth_In. exact Hj.
  Qed.

  Variable m' : gohmm R.
  Hypothesis Hex : exists tr t, In (tr, t) set /\ 0 < P tr.
  Hypothesis Hn' : go_n m' = n.
  Hypothesis Hsq' : square n (go_mat m').
  Hypothesis Hli' : length (go_ini m') = n.
  Hypothesis Hget : forall s s', (s < n)%nat -> (s' < n)%nat -> mget (go_mat m') s s' = est (gDEN s) (gNUM s) (mget (go_mat m) s) s'.
  Hypothesis Hmean : forall s k, (s < n)%nat -> (k < d)%nat -> mean m' s k = if Req_EM_T (gDEN s) 0 then mean m s k else gSUM s k (fun x => x) / gDEN s.
  Hypothesis Hsd : forall s k, (s < n)%nat -> (k < d)%nat -> stddev m' s k =
       sqrt (if Req_EM_T (gDEN s) 0 then stddev m s k else gSUM s k (fun x => (x - mean m s k) * (x - mean m s k)) / gDEN s).
  Hypothesis Hini : forall s, (s < n)%nat -> vget (go_ini m') s = gIN s / Sum n gIN.

  Lemma g_INtot : 0 < Sum n gIN.
  Proof. apply IN_total; eauto using g_okw, g_okf, g_oka; intros; eauto using g_okw, g_okf. Qed.
  Lemma g_mat_nonneg' s s' : (s < n)%nat -> (s' < n)%nat -> 0 <= mget (go_mat m') s s'.
  Proof.
    intros Hs Hs'. rewrite Hget by assumption. apply (est_nonneg n); auto using gDEN_sum.
    - intros; apply gNUM_nonneg; assumption.
    - intros; apply mget_nonneg; apply Hnn.
  Qed.
  Lemma g_nonneg' : nonneg_mat (go_mat m').
  Proof. intros r Ir x Ix. exact (mat_from_entries _ n (fun x => 0 <= x) Hsq' g_mat_nonneg' r x Ir Ix). Qed.
  Lemma g_ini_nonneg' : nonneg (go_ini m').
  Proof.
    intros x Ix. apply (In_nth _ _ 0) in Ix. destruct Ix as [s [Hs <-]]. rewrite Hli' in Hs.
    change (nth s (go_ini m') 0) with (vget (go_ini m') s). rewrite Hini by exact Hs.
    apply Rmult_le_pos; [apply IN_nonneg; auto using g_oka; intros; eauto using g_okw, g_okf|]. apply Rlt_le, Rinv_0_lt_compat, g_INtot.
  Qed.
  Lemma g_ini_sum' : rsum (go_ini m') = 1.
  Proof.
    rewrite rsum_nth, Hli'. rewrite (Sum_ext n _ (fun s => gIN s / Sum n gIN)) by (intros; apply Hini; assumption).
    rewrite Sum_div_r. field. pose proof g_INtot. lra.
  Qed.
  Lemma g_row_sum' s : (s < n)%nat -> rsum (nth s (go_mat m') []) = if Req_EM_T (gDEN s) 0 then rsum (nth s (go_mat m) []) else 1.
  Proof.
    intros Hs. rewrite (row_sum_Sum _ n) by assumption.
    rewrite (Sum_ext n _ (est (gDEN s) (gNUM s) (mget (go_mat m) s))) by (intros; apply Hget; assumption).
    rewrite est_sum by (apply gDEN_sum; exact Hs). rewrite (row_sum_Sum _ n) by (auto; apply Hwf). reflexivity.
  Qed.
  Lemma g_zero' s s' : (s < n)%nat -> (s' < n)%nat -> mget (go_mat m) s s' = 0 -> mget (go_mat m') s s' = 0.
  Proof.
    intros Hs Hs' Z. rewrite Hget by assumption. unfold est. destruct (Req_EM_T _ 0); [exact Z|]. rewrite gNUM_zero by exact Z. unfold Rdiv; ring.
  Qed.

  Hypothesis Hsg' : pos_sigma d m'.
  Hypothesis Hsub : forall r, In r (go_mat m) -> rsum r <= 1.
  Hypothesis Hsubi : rsum (go_ini m) <= 1.

  (** The gain of one component. *)
  Lemma ln_le_minus1 x : 0 < x -> ln x <= x - 1.
  Proof. intros P. pose proof (exp_ineq1_le (ln x)) as H. rewrite exp_ln in H by exact P. lra. Qed.
  Definition out_change (s k : nat) : R :=
    (mean m' s k - mean m s k) ^ 2 / (2 * stddev m' s k ^ 2) + (stddev m' s k / stddev m s k - 1) ^ 2 / 2.
  Lemma g_comp_gain s k : (s < n)%nat -> (k < d)%nat ->
    gDEN s * out_change s k <= gSUM s k (fun x => lnN (mean m' s k) (stddev m' s k) x + lnN (mean m s k) (stddev m s k) x * -1).
  Proof.
    intros Hs Hk. destruct (Req_EM_T (gDEN s) 0) as [Z|NZ]; [rewrite gSUM_zero, Z by assumption; lra|]. unfold out_change.
    assert (HnP : (s < go_n m')%nat) by (rewrite Hn'; exact Hs).
    pose proof (Hsg s k Hs Hk) as S1. pose proof (Hsg' s k HnP Hk) as S2. pose proof (gDEN_nonneg s Hs) as Dn.
    set (mu := mean m s k) in *. set (sg := stddev m s k) in *. set (D := gDEN s) in *.
    assert (Dp : 0 < D) by lra.
    pose proof (Hmean s k Hs Hk) as M1. pose proof (Hsd s k Hs Hk) as V1. fold mu D in M1, V1.
    destruct (Req_EM_T D 0); [lra|].
    set (mu' := mean m' s k) in *. set (sg' := stddev m' s k) in *.
    set (V := gSUM s k (fun x => (x - mu) * (x - mu)) / D) in *.
    assert (Vn : 0 <= V) by (apply Rmult_le_pos; [apply gSUM_nonneg; auto; intros; apply Rle_0_sqr|apply Rlt_le, Rinv_0_lt_compat; exact Dp]).
    assert (VV : sg' ^ 2 = V) by (rewrite V1; cbn; rewrite Rmult_1_r; apply sqrt_sqrt; exact Vn).
    assert (Vp : 0 < V) by (rewrite <- VV; nra).
    assert (E2 : gSUM s k (fun x => (x - mu) * (x - mu)) = V * D) by (unfold V; field; lra).
    assert (E1 : gSUM s k (fun x => x) = mu' * D) by (rewrite M1; field; lra).
    (* write the integrand as A*(x-mu)^2 + B*x + C *)
    set (A := / (2 * sg ^ 2) - / (2 * V)). set (B := (mu' - mu) / V).
    set (C := - ((mu' - mu) ^ 2) / (2 * V) - mu * B + ln sg - ln sg').
    rewrite (gSUM_ext s k _ (fun x => ((x - mu) * (x - mu)) * A + (x * B + C))).
    2: { intros x. unfold lnN, A, B, C, B. rewrite VV. field. split; lra. }
    rewrite !gSUM_plus, !gSUM_scal, gSUM_const, E1, E2. fold D.
    replace (V * D * A + (mu' * D * B + D * C)) with (D * (V * A + mu' * B + C)) by ring.
    apply Rmult_le_compat_l; [lra|]. unfold A, B, C, B.
    replace (V * (/ (2 * sg ^ 2) - / (2 * V)) + mu' * ((mu' - mu) / V) + (- (mu' - mu) ^ 2 / (2 * V) - mu * ((mu' - mu) / V) + ln sg - ln sg'))
      with ((mu' - mu) ^ 2 / (2 * V) + (V / sg ^ 2 - 1 - 2 * (ln sg' - ln sg)) / 2) by (field; split; lra).
    rewrite VV. apply Rplus_le_compat_l. apply Rmult_le_compat_r; [lra|].
    pose proof (ln_le_minus1 (sg' / sg) (Rdiv_lt_0_compat _ _ S2 S1)) as L.
    replace (ln (sg' / sg)) with (ln sg' - ln sg) in L by (unfold Rdiv; rewrite ln_mult, ln_Rinv by (auto using Rinv_0_lt_compat); ring).
    rewrite <- VV. replace (sg' ^ 2 / sg ^ 2) with ((sg' / sg) ^ 2) by (field; lra). lra.
  Qed.
  Lemma g_emit_gain s : (s < n)%nat -> gDEN s * Sum d (out_change s) <= psum n set a0 W fo (fun x t => wsum (gam n a0 (W x) (fun _ => 1) s) (map (fun o => ln (go_density m' o s / go_density m o s)) x) * fac n a0 W fo x t).
  Proof.
    intros Hs. assert (HnP : (s < go_n m')%nat) by (rewrite Hn'; exact Hs).
    rewrite (psum_ext n set a0 W fo _ (fun x t => Sum d (fun k => wsum (gam n a0 (W x) (fun _ => 1) s)
       (map (fun o => (fun y => lnN (mean m' s k) (stddev m' s k) y + lnN (mean m s k) (stddev m s k) y * -1) (nth k o 0)) x) * fac n a0 W fo x t))).
    - rewrite psum_Sum, <- Sum_scal_l. apply Sum_le. intros k Hk. exact (g_comp_gain s k Hs Hk).
    - intros x t I Px. rewrite Sum_scal_r. f_equal. rewrite <- wsum_Sum. f_equal. apply map_ext_in. intros o Io.
      pose proof (go_density_pos d m o s Hsg Hs (Hd x t I o Io)) as P1. pose proof (go_density_pos d m' o s Hsg' HnP (Hd x t I o Io)) as P2.
      unfold Rdiv. rewrite ln_mult, ln_Rinv by (auto using Rinv_0_lt_compat).
      rewrite (ln_go_density d m' o s Hsg' HnP (Hd x t I o Io)), (ln_go_density d m o s Hsg Hs (Hd x t I o Io)).
      rewrite Sum_plus, Sum_scal_r. ring.
  Qed.

  Definition go_change : R :=
    Sum n gIN * sqdist n a0 (vget (go_ini m')) +
    (Sum n (fun s => gDEN s * sqdist n (mget (go_mat m) s) (mget (go_mat m') s)) + Sum n (fun s => gDEN s * Sum d (out_change s))).
  Lemma g_em_gain : set_ll P set + go_change <= set_ll (Pof n (vget (go_ini m')) (gW m') fo) set /\
    (forall tr t, In (tr, t) set -> (0 < P tr <-> 0 < Pof n (vget (go_ini m')) (gW m') fo tr)).
  Proof.
    apply (em_gain n set (fun tr => tr) fo a0 (fun _ : list R => matR (go_mat m)) (go_density m) (vget (go_ini m')) (fun _ => matR (go_mat m')) (go_density m') HT g_okf g_oka).
    - intros s Hs. apply vget_nonneg. exact g_ini_nonneg'.
    - exact g_HA.
    - intros x t o I Io. split; [intros s s' Hs Hs'; apply g_mat_nonneg'; assumption|]. intros s Hs. apply Rlt_le. apply (go_density_pos d); eauto. rewrite Hn'; exact Hs.
    - intros x t k dd s s' I Px Hk Hs Hs' Pk.
      assert (PN : 0 < gNUM s s').
      { apply (XI_ones_pos n set a0 W fo HT) with (x := x) (t := t) (k := k); auto using g_oka; try (intros; eauto using g_okw, g_okf; fail).
        unfold gW. rewrite ew_length. exact Hk. }
      split.
      + change (0 < mget (go_mat m') s s'). rewrite Hget by assumption. unfold est. pose proof (gDEN_nonneg s Hs). destruct (Req_EM_T _ 0); [apply gNUM_supp; exact PN|].
        apply Rdiv_lt_0_compat; [exact PN|lra].
      + apply (go_density_pos d); auto; [rewrite Hn'; exact Hs|]. apply (Hd x t I). apply nth_In. exact Hk.
    - intros x t o s s' I Io Hs Hs' Z. pose proof (go_density_pos d m o s Hsg Hs (Hd x t I o Io)) as Pd. apply Rmult_integral in Z. destruct Z as [Z|Z]; [lra|].
      change (matR (go_mat m') s s') with (mget (go_mat m') s s'). rewrite g_zero' by assumption. ring.
    - intros s Hs Z. rewrite Hini by exact Hs. unfold gIN. rewrite IN_zero by exact Z. unfold Rdiv; ring.
    - intros s Hs Q. rewrite Hini by exact Hs. apply Rdiv_lt_0_compat; [exact Q|apply g_INtot].
    - apply Rplus_le_compat; [|apply Rplus_le_compat].
    + apply Rle_trans with (Sum n (fun s => gIN s * ln (gIN s / Sum n gIN / a0 s))); [|apply Req_le, Sum_ext; intros s Hs; rewrite Hini by exact Hs; reflexivity].
      replace (sqdist n a0 (vget (go_ini m'))) with (Sum n (fun s => (sqrt (gIN s / Sum n gIN) - sqrt (a0 s)) ^ 2))
        by (apply Sum_ext; intros j Hj; rewrite Hini by assumption; reflexivity).
      apply ini_gain; auto using g_oka; try (intros; eauto using g_okw, g_okf; fail).
      rewrite <- go_ini_len. rewrite rsum_nth in Hsubi. exact Hsubi.
    + apply Sum_le. intros s Hs.
      rewrite (Sum_ext n _ (fun s' => gNUM s s' * ln (est (gDEN s) (gNUM s) (mget (go_mat m) s) s' / mget (go_mat m) s s'))).
      * replace (sqdist n (mget (go_mat m) s) (mget (go_mat m') s)) with (sqdist n (mget (go_mat m) s) (est (gDEN s) (gNUM s) (mget (go_mat m) s)))
          by (apply Sum_ext; intros j Hj; rewrite Hget by assumption; reflexivity).
        apply est_gain; auto using gDEN_sum.
        -- intros; apply gNUM_nonneg; assumption.
        -- intros; apply mget_nonneg; apply Hnn.
        -- intros j Hj Q. apply gNUM_supp. exact Q.
        -- rewrite <- (row_sum_Sum (go_mat m) n) by (auto; apply Hwf). apply Hsub. apply (nth_mget_in _ n); [apply Hwf|exact Hs].
      * intros s' Hs'. rewrite <- Hget by assumption. unfold trans_gain, gNUM, XI. rewrite <- psum_scal_r. apply psum_ext. intros x t I Px.
        fold (gW m). unfold ones1. rewrite wsum_ones1 by apply xi_length.
        rewrite (wsum_const _ _ (ln (matR (go_mat m') s s' / matR (go_mat m) s s'))).
        -- change (matR (go_mat m') s s') with (mget (go_mat m') s s'). change (matR (go_mat m) s s') with (mget (go_mat m) s s'). ring.
        -- intros y Iy. apply in_map_iff in Iy. destruct Iy as [o [<- _]]. reflexivity.
        -- rewrite xi_length, map_length. unfold gW. rewrite ew_length. lia.
    + apply Sum_le. intros s Hs. unfold emit_gain. fold (gW m). apply g_emit_gain. exact Hs.
  Qed.
  Lemma out_change_nonneg s k : (s < n)%nat -> (k < d)%nat -> 0 <= out_change s k.
  Proof.
    intros Hs Hk. assert (HnP : (s < go_n m')%nat) by (rewrite Hn'; exact Hs). pose proof (Hsg' s k HnP Hk).
    unfold out_change. apply Rplus_le_le_0_compat; apply Rmult_le_pos; try apply pow2_ge_0; [|lra]. apply Rlt_le, Rinv_0_lt_compat. nra.
  Qed.
  Lemma go_change_nonneg : 0 <= go_change.
  Proof.
    pose proof g_INtot. apply Rplus_le_le_0_compat; [apply Rmult_le_pos; [lra|apply sqdist_nonneg]|].
    apply Rplus_le_le_0_compat; apply Sum_nonneg; intros; apply Rmult_le_pos; auto using sqdist_nonneg, gDEN_nonneg.
    apply Sum_nonneg. intros. apply out_change_nonneg; assumption.
  Qed.
  Lemma g_em_mono : set_ll P set <= set_ll (Pof n (vget (go_ini m')) (gW m') fo) set /\
    (forall tr t, In (tr, t) set -> (0 < P tr <-> 0 < Pof n (vget (go_ini m')) (gW m') fo tr)).
  Proof. destruct g_em_gain as [H1 H2]. pose proof go_change_nonneg. split; [lra|exact H2]. Qed.
End GOfit.
