(** Gaussian HMMs with finite numbers: one round. *)
From Coq Require Import String ZArith Bool Reals List Lia Lra.
From Verif Require Import Num Py SNum LSum LTools MSet MModels MLik MBW SBW SLik LFB LEM LBW MExt LExt LExt2.
Import ListNotations.
Local Open Scope R_scope.

(** ** Nonnegative numbers *)

Lemma nn_get v i : nonneg v -> 0 <= vget v i.
Proof. intros Hv. unfold vget. destruct (nth_in_or_default i v n0) as [I|E]; [apply Hv; exact I|rewrite E; cbn; lra]. Qed.
Lemma nn_mget m i j : nonneg_mat m -> 0 <= mget m i j.
Proof. intros Hm. unfold mget. destruct (nth_in_or_default i m []) as [I|E]; [apply nn_get, Hm; exact I|rewrite E; destruct j; cbn; lra]. Qed.
Lemma nn_zip l m : nonneg l -> nonneg m -> nonneg (zipwith nmul l m).
Proof.
  revert m. induction l as [|x l IH]; intros [|y m] Hl Hm z I; try (destruct I; fail). destruct I as [<-|I].
  - nR. apply Rmult_le_pos; [apply Hl|apply Hm]; left; reflexivity.
  - apply (IH m); [intros u Iu; apply Hl; right; exact Iu|intros u Iu; apply Hm; right; exact Iu|exact I].
Qed.
Lemma nn_sum l : nonneg l -> 0 <= nsum l.
Proof. intros Hl. induction l as [|x l IH]; cbn; [lra|]. assert (0 <= x) by (apply Hl; left; reflexivity). assert (0 <= nsum l) by (apply IH; intros y I; apply Hl; right; exact I). cbn in *. unfold nsum in *. cbn in *. lra. Qed.
Lemma nn_map {A} (f : A -> R) l : (forall a, In a l -> 0 <= f a) -> nonneg (map f l).
Proof. intros Hf x I. apply in_map_iff in I. destruct I as [a [<- I]]. apply Hf. exact I. Qed.
Lemma nn_build n f : (forall s, (s < n)%nat -> 0 <= f s) -> nonneg (vbuild n f).
Proof. intros Hf. apply nn_map. intros s I. apply in_seq in I. apply Hf. lia. Qed.
Lemma nn_scale k l : 0 <= k -> nonneg l -> nonneg (map (fun x => nmul x k) l).
Proof. intros Hk Hl. apply nn_map. intros x I. nR. apply Rmult_le_pos; [apply Hl; exact I|exact Hk]. Qed.
Lemma nn_fstep n a w : nonneg a -> (forall i j, 0 <= w i j) -> nonneg (fstep n a w).
Proof. intros Ha Hw. apply nn_build. intros s _. apply nn_sum, nn_zip; [exact Ha|]. apply nn_build. intros ss _. apply Hw. Qed.
Definition nn_w (w : nat -> nat -> R) : Prop := forall i j, 0 <= w i j.
Lemma nn_alphas n ws : Forall nn_w ws -> forall a, nonneg a -> nonneg_mat (bw_alphas n a ws).
Proof.
  induction 1 as [|w ws Hw F IH]; intros a Ha r I; cbn [bw_alphas] in I; destruct I as [<-|I]; try exact Ha; [destruct I|].
  apply (IH (fstep n a w)); [apply nn_fstep; assumption|exact I].
Qed.
Lemma nn_hd m : nonneg_mat m -> nonneg (hd [] m).
Proof. destruct m as [|r m]; intros Hm; [intros x []|]. apply Hm. left. reflexivity. Qed.
Lemma nn_last m : nonneg_mat m -> nonneg (last m []).
Proof. intros Hm. induction m as [|r m IH]; [intros x []|]. cbn. destruct m; [apply Hm; left; reflexivity|]. apply IH. intros q I. apply Hm. right. exact I. Qed.
Lemma nn_betas n f ws : Forall nn_w ws -> nonneg f -> nonneg_mat (bw_betas n f ws).
Proof.
  intros F Hf. induction F as [|w ws Hw F IH]; intros r I; cbn [bw_betas] in I.
  - destruct I as [<-|[]]. exact Hf.
  - destruct I as [<-|I]; [|apply IH; exact I]. apply nn_build. intros s _. apply nn_sum, nn_zip; [apply nn_hd; exact IH|]. apply nn_build. intros ss _. apply Hw.
Qed.
Lemma in_but {A} (l : list A) x : In x (removelast l) -> In x l.
Proof. induction l as [|y [|z l] IH]; cbn; [auto|intros []|]. intros [E|I]; [left; exact E|right; apply IH; exact I]. Qed.
Lemma nn_colinit m s : nonneg_mat m -> nonneg (col_init m s).
Proof. intros Hm. apply nn_map. intros r I. apply nn_get. apply Hm. apply in_but. exact I. Qed.
Lemma nn_ones n : nonneg (vones n).
Proof. intros x I. apply repeat_spec in I. rewrite I. cbn. lra. Qed.
Lemma nn_addv l m : nonneg l -> nonneg m -> nonneg (vadd l m).
Proof.
  revert m. induction l as [|x l IH]; intros [|y m] Hl Hm z I; try (destruct I; fail). destruct I as [<-|I].
  - nR. assert (0 <= x) by (apply Hl; left; reflexivity). assert (0 <= y) by (apply Hm; left; reflexivity). lra.
  - apply (IH m); [intros u Iu; apply Hl; right; exact Iu|intros u Iu; apply Hm; right; exact Iu|exact I].
Qed.
Lemma nn_addm l m : nonneg_mat l -> nonneg_mat m -> nonneg_mat (madd l m).
Proof.
  revert m. induction l as [|x l IH]; intros [|y m] Hl Hm z I; try (destruct I; fail). destruct I as [<-|I].
  - apply nn_addv; [apply Hl|apply Hm]; left; reflexivity.
  - apply (IH m); [intros u Iu; apply Hl; right; exact Iu|intros u Iu; apply Hm; right; exact Iu|exact I].
Qed.
Lemma nn_vsum l : (forall v, In v l -> nonneg v) -> nonneg (vsum_all l).
Proof.
  destruct l as [|x l]; intros Hl; [intros z []|]. cbn [vsum_all]. assert (Hx : nonneg x) by (apply Hl; left; reflexivity).
  assert (Hr : forall v, In v l -> nonneg v) by (intros; apply Hl; right; assumption). clear Hl. revert x Hx. induction l as [|y l IH]; intros x Hx; [exact Hx|]. cbn.
  apply IH; [intros; apply Hr; right; assumption|]. apply nn_addv; [exact Hx|apply Hr; left; reflexivity].
Qed.
Lemma nn_msum l : (forall v, In v l -> nonneg_mat v) -> nonneg_mat (msum_all l).
Proof.
  destruct l as [|x l]; intros Hl; [intros z []|]. cbn [msum_all]. assert (Hx : nonneg_mat x) by (apply Hl; left; reflexivity).
  assert (Hr : forall v, In v l -> nonneg_mat v) by (intros; apply Hl; right; assumption). clear Hl. revert x Hx. induction l as [|y l IH]; intros x Hx; [exact Hx|]. cbn.
  apply IH; [intros; apply Hr; right; assumption|]. apply nn_addm; [exact Hx|apply Hr; left; reflexivity].
Qed.

(** ** The model *)

Definition x_pair (p : R * R) : xr * xr := (XF (fst p), XF (snd p)).
Definition x_go (m : gohmm R) : gohmm xr := mkGO (xmat (go_mat m)) (map (map x_pair) (go_out m)) (xvec (go_ini m)) (go_name m).
Lemma x_param m s k : go_param (x_go m) s k = x_pair (go_param m s k).
Proof.
  unfold go_param. cbn [x_go go_out]. change (@nil (xr * xr)) with (map x_pair []). rewrite map_nth. change (@n0 xr XNum, @n0 xr XNum) with (x_pair (0, 0)). apply map_nth.
Qed.
Lemma x_go_bn m s k l : go_b_n (x_go m) s k (XF l) = XF (go_b_n m s k l).
Proof.
  unfold go_b_n. rewrite x_param. destruct (go_param m s k) as [mu sigma]. unfold x_pair. cbn [fst snd].
  change (nleb (XF sigma) n0) with (Rleb sigma 0). change (nleb sigma n0) with (Rleb sigma 0).
  destruct (Rleb sigma 0) eqn:E.
  - change (neqb (XF l) (XF mu)) with (Reqb l mu). change (neqb l mu) with (Reqb l mu). exact (xif _ 1 0).
  - apply Rleb_false in E. 
    assert (Z : ndiv (nsub (XF mu) (XF l)) (XF sigma) = XF ((mu - l) / sigma)) by (apply (xdiv_fin (mu + - l)); lra).
    rewrite Z. clear Z.
    assert (Q : nsqrt (nmul (nofZ 2) npi) = XF (sqrt (2 * PI))).
    { cbn. destruct (Rlt_dec (2 * PI) 0) as [N|_]; [pose proof PI_RGT_0; lra|reflexivity]. }
    rewrite Q. assert (H2 : ndiv n1 (nofZ 2) = XF (1 / 2)) by (apply xdiv_fin; lra). rewrite H2.
    refine (eq_trans (xdiv_fin (exp (0 + - (1 / 2 * ((mu - l) / sigma * ((mu - l) / sigma))))) (sigma * sqrt (2 * PI)) _) _); [|reflexivity].
     assert (0 < sqrt (2 * PI)) by (apply sqrt_lt_R0; pose proof PI_RGT_0; lra). apply Rgt_not_eq, Rmult_lt_0_compat; assumption.
Qed.
Lemma x_go_b m s o : go_b (x_go m) s (xvec o) = XF (go_b m s o).
Proof.
  unfold go_b. rewrite xvec_length. 
  assert (G : forall l k (acc : R), fold_left nmul (zipwith (fun k x => go_b_n (x_go m) s k x) (seq k (length l)) (xvec l)) (XF acc) =
    XF (fold_left nmul (zipwith (fun k x => go_b_n m s k x) (seq k (length l)) l) acc)).
  { induction l as [|x l IH]; intros k acc; [reflexivity|]. cbn [length seq xvec map zipwith fold_left]. rewrite x_go_bn.
    change (nmul (XF acc) (XF (go_b_n m s k x))) with (XF (nmul acc (go_b_n m s k x))). apply IH. }
  apply (G o O 1).
Qed.
Lemma x_go_tau m s ss o : go_tau (x_go m) s ss (xvec o) = XF (go_tau m s ss o).
Proof. unfold go_tau. cbn [x_go go_mat]. rewrite xmget. fold (x_go m). change (mkGO (xmat (go_mat m)) (map (map x_pair) (go_out m)) (xvec (go_ini m)) (go_name m)) with (x_go m). rewrite x_go_b. reflexivity. Qed.
Lemma go_bn_nonneg (m : gohmm R) s k l : 0 <= go_b_n m s k l.
Proof.
  unfold go_b_n. destruct (go_param m s k) as [mu sigma]. nR. destruct (Rleb sigma 0) eqn:E; [destruct (Reqb l mu); lra|]. apply Rleb_false in E.
  apply Rlt_le. apply Rdiv_lt_0_compat; [apply exp_pos|]. apply Rmult_lt_0_compat; [exact E|]. apply sqrt_lt_R0. pose proof PI_RGT_0. lra.
Qed.
Lemma go_b_nonneg (m : gohmm R) s o : 0 <= go_b m s o.
Proof.
  unfold go_b. assert (G : forall l k (acc : R), 0 <= acc -> 0 <= fold_left nmul (zipwith (fun k x => go_b_n m s k x) (seq k (length l)) l) acc); [|apply G; cbn; lra].
  induction l as [|x l IH]; intros k acc Ha; [exact Ha|]. cbn [length seq zipwith fold_left]. apply IH. nR. apply Rmult_le_pos; [exact Ha|apply go_bn_nonneg].
Qed.

Definition x_stat_go (t : stat_go) : stat_go :=
  mkStatGO (xvec (sg_den t)) (xmat (sg_num_a t)) (xmat (sg_mu t)) (xmat (sg_va t)) (XF (sg_proba t)) (sg_times t) (xvec (sg_init t)).
Lemma x_work_GO m d tr t : processWork_GoHMM (x_go m) d (xmat tr) t = option_map x_stat_go (processWork_GoHMM m d tr t).
Proof.
  unfold processWork_GoHMM, go_n. cbn [x_go go_mat go_ini]. rewrite xmat_length. set (n := length (go_mat m)).
  change (mkGO (xmat (go_mat m)) (map (map x_pair) (go_out m)) (xvec (go_ini m)) (go_name m)) with (x_go m).
  assert (F : Forall2 (fin_w n) (map (fun o ss s => go_tau (x_go m) ss s o) (xmat tr)) (map (fun o ss s => go_tau m ss s o) tr)).
  { unfold xmat. rewrite map_map. apply (fin_map n tr (fun o ss s => go_tau (x_go m) ss s (xvec o)) (fun o ss s => go_tau m ss s o)). intros o _ i j _ _. apply x_go_tau. }
  rewrite (xalphas _ _ _ F), xones, (xbetas _ _ _ _ F), xproba.
  set (al := bw_alphas _ _ _). set (be := bw_betas _ _ _).
  change (neqb (XF ?p) n0) with (Reqb p 0). change (neqb (proba_of al) n0) with (Reqb (proba_of al) 0).
  destruct (Reqb _ 0) eqn:E; [reflexivity|]. apply Reqb_false in E. cbn [option_map]. f_equal. unfold x_stat_go. cbn [sg_den sg_num_a sg_mu sg_va sg_proba sg_times sg_init].
  change (@nofZ xr XNum t) with (XF (IZR t)). rewrite xdiv_fin by exact E. f_equal.
  - apply xbuild. intros s _. apply xstat_den.
  - apply xbuildm. intros s _. apply xbuild. intros ss _.
    assert (Q : map (fun o => go_tau (x_go m) s ss o) (xmat tr) = xvec (map (fun o => go_tau m s ss o) tr)).
    { unfold xmat. rewrite map_map. apply xmapv. intros o. apply x_go_tau. }
    rewrite Q. apply xstat_num.
  - apply xbuildm. intros s _. apply xbuild. intros k _.
    rewrite xcol, !xcoli, !xmulv, xscale. apply xnsum.
  - apply xbuildm. intros s _. apply xbuild. intros k _.
    assert (Q : map (fun o => let z := nsub (vget o k) (go_mu (x_go m) s k) in nmul z z) (xmat tr) = xvec (map (fun o => let z := nsub (vget o k) (go_mu m s k) in nmul z z) tr)).
    { unfold xmat. rewrite map_map. apply xmapv. intros o. unfold go_mu. rewrite xget, x_param. reflexivity. }
    cbn zeta in Q |- *. rewrite Q, !xcoli, !xmulv, xscale. apply xnsum.
  - rewrite !xhd, xmulv. apply xscale.
Qed.

Lemma g_init m d x t st : length (go_ini m) = go_n m -> processWork_GoHMM m d x t = Some st -> length (sg_init st) = go_n m /\ rsum (sg_init st) = IZR t.
Proof.
  intros Li. unfold processWork_GoHMM. destruct (neqb _ n0) eqn:E; [discriminate|]. apply Reqb_false in E. intros [= <-]. cbn [sg_init]. rewrite bw_alphas_hd. split.
  - rewrite map_length, zipwith_length, bw_betas_hd_length by apply vones_length. lia.
  - change (rsum ?l) with (nsum l). rewrite nsum_scale, init_total by exact Li. nR. field. exact E.
Qed.

(** Nonnegative entries and standard deviations. *)
Definition nn_go (m : gohmm R) : Prop := nonneg_mat (go_mat m) /\ nonneg (go_ini m) /\ (forall s k, 0 <= snd (go_param m s k)) /\ length (go_ini m) = go_n m.

Lemma g_nn m d x t st : nn_go m -> (0 < t)%Z -> processWork_GoHMM m d x t = Some st ->
  nonneg (sg_den st) /\ nonneg_mat (sg_num_a st) /\ nonneg_mat (sg_va st) /\ nonneg (sg_init st).
Proof.
  intros [Hm [Hi _]] Ht. apply IZR_lt in Ht. unfold processWork_GoHMM.
  set (ws := map (fun o ss s => go_tau m ss s o) x).
  assert (F : Forall nn_w ws).
  { apply Forall_forall. intros w I. apply in_map_iff in I. destruct I as [o [<- _]]. intros i j. unfold go_tau. nR. apply Rmult_le_pos; [apply nn_mget; exact Hm|apply go_b_nonneg]. }
  pose proof (nn_alphas (go_n m) ws F (go_ini m) Hi) as A. pose proof (nn_betas (go_n m) (vones (go_n m)) ws F (nn_ones _)) as B.
  set (al := bw_alphas _ _ _) in *. set (be := bw_betas _ _ _) in *.
  destruct (neqb _ n0) eqn:E; [discriminate|]. apply Reqb_false in E. intros [= <-]. cbn [sg_den sg_num_a sg_va sg_init].
  assert (Pp : 0 <= proba_of al) by (apply nn_sum, nn_last; exact A).
  assert (Hk : 0 <= ndiv (nofZ t) (proba_of al)) by (nR; apply Rlt_le, Rdiv_lt_0_compat; lra).
  assert (CT : forall s, nonneg (col_tail be s)).
  { intros s. apply nn_map. intros r I. apply nn_get. apply B. destruct be; [destruct I|right; exact I]. }
  split; [|split; [|split]].
  - apply nn_build. intros s _. apply nn_sum, nn_scale, nn_zip; auto using nn_colinit.
  - intros r I. apply in_map_iff in I. destruct I as [s [<- _]]. apply nn_build. intros ss _. apply nn_sum, nn_scale, nn_zip; [exact Hk|apply nn_zip; [auto using nn_colinit|]|apply CT].
    apply nn_map. intros o _. unfold go_tau. nR. apply Rmult_le_pos; [apply nn_mget; exact Hm|apply go_b_nonneg].
  - intros r I. apply in_map_iff in I. destruct I as [s [<- _]]. apply nn_build. intros k _. apply nn_sum, nn_scale, nn_zip; [exact Hk|apply nn_zip; auto using nn_colinit|].
    apply nn_map. intros o _. cbn zeta. nR. apply Rle_0_sqr.
  - apply nn_scale, nn_zip; [exact Hk|apply nn_hd; exact A|apply nn_hd; exact B].
Qed.

Lemma x_round_GO p d set m : nn_go m -> pos_times set ->
  round_GoHMM p d (map (fun st => (xmat (fst st), snd st)) set) (x_go m) = xres x_go (round_GoHMM p d set m) /\
  (forall m' ll, round_GoHMM p d set m = Ok (m', ll) -> nn_go m').
Proof.
  intros NN HT. unfold round_GoHMM, update_GoHMM.
  assert (G : forall l, runProcesses p (processWork_GoHMM (x_go m) d) (map (fun st => (xmat (fst st), snd st)) l) =
    runProcesses p (fun tr t => processWork_GoHMM (x_go m) d (xmat tr) t) l) by (intros l; unfold runProcesses; rewrite map_map; reflexivity).
  rewrite G. rewrite (xrun x_stat_go p (processWork_GoHMM m d)) by (intros; apply x_work_GO). rewrite xunwrap.
  destruct (unwrap _) as [temp|] eqn:EU; [|split; [reflexivity|discriminate]]. cbn [bind]. apply unwrap_run in EU. destruct temp as [|t0 temp]; [split; [reflexivity|discriminate]|]. set (T := t0 :: temp) in *.
  pose proof NN as [Hm [Hi [Hs Li]]].
  assert (Z : 0 < nsum (vsum_all (map sg_init T))).
  { rewrite EU. apply (goods_init_pos _ sg_init (go_n m) set HT); [|rewrite <- EU; discriminate]. intros x t st. apply g_init. exact Li. }
  assert (GN : forall st, In st T -> nonneg (sg_den st) /\ nonneg_mat (sg_num_a st) /\ nonneg_mat (sg_va st) /\ nonneg (sg_init st)).
  { intros st I. rewrite EU in I. apply In_goods in I. destruct I as [[x t] [Ix Ex]]. apply (g_nn m d x t st NN (HT _ Ix) Ex). }
  assert (Nd : nonneg (vsum_all (map sg_den T))) by (apply nn_vsum; intros v I; apply in_map_iff in I; destruct I as [st [<- I]]; exact (proj1 (GN st I))).
  assert (Na : nonneg_mat (msum_all (map sg_num_a T))) by (apply nn_msum; intros v I; apply in_map_iff in I; destruct I as [st [<- I]]; exact (proj1 (proj2 (GN st I)))).
  assert (Nv : nonneg_mat (msum_all (map sg_va T))) by (apply nn_msum; intros v I; apply in_map_iff in I; destruct I as [st [<- I]]; exact (proj1 (proj2 (proj2 (GN st I))))).
  assert (Ni : nonneg (vsum_all (map sg_init T))) by (apply nn_vsum; intros v I; apply in_map_iff in I; destruct I as [st [<- I]]; exact (proj2 (proj2 (proj2 (GN st I))))).
  split.
  - destruct (map x_stat_go T) as [|g0 gs] eqn:ET; [discriminate|]. rewrite <- ET. clear ET EU.
    assert (D : map sg_den (map x_stat_go T) = map xvec (map sg_den T)) by (rewrite !map_map; reflexivity).
    assert (N : map sg_num_a (map x_stat_go T) = map xmat (map sg_num_a T)) by (rewrite !map_map; reflexivity).
    assert (Mu : map sg_mu (map x_stat_go T) = map xmat (map sg_mu T)) by (rewrite !map_map; reflexivity).
    assert (Va : map sg_va (map x_stat_go T) = map xmat (map sg_va T)) by (rewrite !map_map; reflexivity).
    assert (In' : map sg_init (map x_stat_go T) = map xvec (map sg_init T)) by (rewrite !map_map; reflexivity).
    assert (P : map (fun t => (sg_proba t, sg_times t)) (map x_stat_go T) = map (fun x => (XF (fst x), snd x)) (map (fun t => (sg_proba t, sg_times t)) T)) by (rewrite !map_map; reflexivity).
    rewrite D, N, Mu, Va, In', P, !xsum_all, !xmsum_all, xlog_lik. unfold go_n in *. cbn [xres].
    assert (E : x_go (mkGO (go_mat m) (go_out m) (go_ini m) (go_name m)) = x_go m) by reflexivity.
    cbn [x_go go_mat go_ini go_name]. rewrite xmat_length, xnew_matrix.
    change (mkGO (xmat (go_mat m)) (map (map x_pair) (go_out m)) (xvec (go_ini m)) (go_name m)) with (x_go m).
    pose proof (x_param m) as XP'. set (Y := x_go m) in *. clearbody Y. f_equal. f_equal. unfold x_go. cbn [go_mat go_out go_ini go_name]. f_equal.
    + unfold vbuild. rewrite map_map. apply map_ext. intros s. rewrite map_map. apply map_ext. intros k.
      rewrite xget, XP', !xmget. set (den := vget _ s). change (neqb (XF den) n0) with (Reqb den 0). change (neqb den n0) with (Reqb den 0).
      destruct (Reqb den 0) eqn:Ed.
      * unfold x_pair. cbn [fst snd]. rewrite !xdiv_one. cbn [nsqrt XTrans]. specialize (Hs s k).
        destruct (Rlt_dec (snd (go_param m s k) / 1) 0) as [N0|_]; [lra|]. reflexivity.
      * apply Reqb_false in Ed. unfold x_pair. cbn [fst snd]. rewrite !xdiv_fin by exact Ed. cbn [nsqrt XTrans].
        destruct (Rlt_dec (mget (msum_all (map sg_va T)) s k / den) 0) as [N0|_]; [|reflexivity]. exfalso.
        assert (0 <= den) by (apply nn_get; exact Nd). pose proof (nn_mget _ s k Nv) as V.
        assert (0 <= mget (msum_all (map sg_va T)) s k / den); [|lra]. apply Rmult_le_pos; [exact V|]. apply Rlt_le, Rinv_0_lt_compat. lra.
    + apply xbuild. intros s _. rewrite xget, xnsum. apply xdiv_fin. apply Rgt_not_eq. exact Z.
  - intros m' ll [= <- _]. unfold nn_go. cbn [go_mat go_ini go_n]. split; [|split; [|split]].
    + intros r I. apply in_map_iff in I. destruct I as [s [<- _]]. unfold new_row. destruct (neqb _ n0) eqn:Ed; apply nn_build; intros j _; nR.
      * assert (0 <= mget (go_mat m) s j) by (apply nn_mget; exact Hm). unfold mget in H. lra.
      * apply Reqb_false in Ed. pose proof (nn_get _ s Nd) as A. pose proof (nn_mget _ s j Na) as B. unfold mget in B. apply Rmult_le_pos; [exact B|]. apply Rlt_le, Rinv_0_lt_compat. destruct (Rle_lt_or_eq_dec _ _ A) as [L|L]; [exact L|exfalso; apply Ed; symmetry; exact L].
    + apply nn_build. intros s _. nR. apply Rmult_le_pos; [apply nn_get; exact Ni|]. apply Rlt_le, Rinv_0_lt_compat. exact Z.
    + intros s k. unfold go_param. cbn [go_out].
      assert (Q : forall l, (forall r, In r l -> forall p, In p r -> 0 <= snd p) -> 0 <= snd (nth k (nth s l []) (0, 0))).
      { intros l Hl. destruct (nth_in_or_default s l []) as [I|E0]; [|rewrite E0; destruct k; cbn; lra]. destruct (nth_in_or_default k (nth s l []) (0, 0)) as [J|E0]; [|rewrite E0; cbn; lra]. apply (Hl _ I _ J). }
      apply Q. intros r I q J. apply in_map_iff in I. destruct I as [i [<- _]]. apply in_map_iff in J. destruct J as [j [<- _]].
      match goal with |- context [if ?b then _ else _] => destruct b end; cbn [snd]; apply sqrt_pos.
    + unfold go_n. cbn [go_mat]. unfold new_matrix. rewrite !vbuild_length. reflexivity.
Qed.
