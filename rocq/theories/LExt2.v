(** Rounds of Baum-Welch on models with finite numbers. *)
From Coq Require Import String ZArith Bool Reals List Lia Lra.
From Verif Require Import Num Py SNum LSum LTools MSet MModels MLik MBW SBW LFB LEM LBW MExt LExt.
Import ListNotations.
Local Open Scope R_scope.

Lemma xif (b : bool) (x y : R) : (if b then XF x else XF y) = XF (if b then x else y).
Proof. destruct b; reflexivity. Qed.

(** ** Weights *)

Lemma x_mc_tau m s ss o : mc_tau (x_mc m) s ss o = XF (mc_tau m s ss o).
Proof. unfold mc_tau. cbn [x_mc mc_lab mc_mat]. rewrite xmget. exact (xif _ 0 _). Qed.
Lemma x_hmm_tau m s ss o : hmm_tau (x_hmm m) s ss o = XF (hmm_tau m s ss o).
Proof.
  unfold hmm_tau, hmm_a, hmm_b, hmm_n. cbn [x_hmm hmm_mat hmm_alph hmm_out]. rewrite xmat_length, xmget.
  destruct (_ <=? _)%nat; [reflexivity|]. destruct (index_of _ _ _); [rewrite xmget|]; reflexivity.
Qed.
Lemma x_hmm_b m s o : hmm_b (x_hmm m) s o = XF (hmm_b m s o).
Proof.
  unfold hmm_b, hmm_n. cbn [x_hmm hmm_mat hmm_alph hmm_out]. rewrite xmat_length.
  destruct (_ <=? _)%nat; [reflexivity|]. destruct (index_of _ _ _); [apply xmget|reflexivity].
Qed.
Lemma x_lab_b l s o : lab_b l s o = XF (lab_b l s o).
Proof. exact (xif _ 1 0). Qed.
Lemma x_mdp_tau m s a ss o : mdp_tau (x_mdp m) s a ss o = XF (mdp_tau m s a ss o).
Proof.
  unfold mdp_tau, mdp_get. cbn [x_mdp mdp_lab mdp_act mdp_mat]. destruct (negb _); [reflexivity|]. destruct (index_of _ _ _); [|reflexivity].
  change (map xmat (mdp_mat m)) with (xten (mdp_mat m)). rewrite xlay. apply xmget.
Qed.
Lemma x_ct_l m s ss o : ct_l (x_ctmc m) s ss o = XF (ct_l m s ss o).
Proof. unfold ct_l. cbn [x_ctmc ct_lab ct_mat]. rewrite xmget. exact (xif _ 0 _). Qed.
Lemma x_ct_e m s : ct_e (x_ctmc m) s = XF (ct_e m s).
Proof. unfold ct_e. cbn [x_ctmc ct_mat]. rewrite xrow. apply xnsum. Qed.
Lemma x_ct_tau m s ss o : ct_e m s <> 0 -> ct_tau (x_ctmc m) s ss o = XF (ct_tau m s ss o).
Proof. intros E. unfold ct_tau. rewrite x_ct_l, x_ct_e. apply xdiv_fin. exact E. Qed.
Definition xtimed (tr : @timed R) : @timed xr := (fst tr, xvec (snd tr)).
Lemma x_lab_mask n l o : lab_mask n l o = xvec (lab_mask n l o).
Proof. apply xbuild. intros s _. apply x_lab_b. Qed.
Lemma xbuild_ok f g : forall n, (forall s, (s < n)%nat -> f s = XF (g s)) -> vbuild n f = xvec (vbuild n g).
Proof. intros n. apply xbuild. Qed.

(** ** MC *)

Definition x_stat (t : stat_mc) : stat_mc := mkStatMC (xvec (sm_den t)) (xmat (sm_num t)) (XF (sm_proba t)) (sm_times t).
Lemma x_work_MC m tr t : processWork_MC (x_mc m) tr t = option_map x_stat (processWork_MC m tr t).
Proof.
  unfold processWork_MC, mc_n. cbn [x_mc mc_mat mc_ini]. rewrite xmat_length. set (n := length (mc_mat m)).
  assert (F : Forall2 (fin_w n) (mc_ws (x_mc m) tr) (mc_ws m tr)) by (apply fin_map; intros o _ i j _ _; apply x_mc_tau).
  change (mkMC (xmat (mc_mat m)) (mc_lab m) (xvec (mc_ini m)) (mc_name m)) with (x_mc m).
  rewrite (xalphas _ _ _ F), xones, (xbetas _ _ _ _ F), xproba.
  change (neqb (XF ?p) n0) with (Reqb p 0). change (neqb (proba_of (bw_alphas n (mc_ini m) (mc_ws m tr))) n0) with (Reqb (proba_of (bw_alphas n (mc_ini m) (mc_ws m tr))) 0).
  destruct (Reqb _ 0) eqn:E; [reflexivity|]. apply Reqb_false in E. cbn [option_map]. f_equal. unfold x_stat. cbn [sm_den sm_num sm_proba sm_times].
  change (@nofZ xr XNum t) with (XF (IZR t)). rewrite xdiv_fin by exact E. f_equal.
  - apply xbuild. intros s _. apply xstat_den.
  - apply xbuildm. intros s _. apply xbuild. intros ss _. rewrite (xmapv tr _ (fun o => mc_tau m s ss o)) by (intros; apply x_mc_tau). apply xstat_num.
Qed.

Lemma x_round_MC p set m : round_MC p set (x_mc m) = xres x_mc (round_MC p set m).
Proof.
  unfold round_MC, update_MC. rewrite (xrun x_stat p (processWork_MC m)) by (intros; apply x_work_MC). rewrite xunwrap.
  destruct (unwrap _) as [temp|]; [|reflexivity]. cbn [bind]. destruct temp as [|t0 temp]; [reflexivity|]. set (T := t0 :: temp).
  destruct (map x_stat T) as [|g0 gs] eqn:ET; [discriminate|]. rewrite <- ET. clear ET.
  assert (D : map sm_den (map x_stat T) = map xvec (map sm_den T)) by (rewrite !map_map; reflexivity).
  assert (N : map sm_num (map x_stat T) = map xmat (map sm_num T)) by (rewrite !map_map; reflexivity).
  assert (P : map (fun t => (sm_proba t, sm_times t)) (map x_stat T) = map (fun x => (XF (fst x), snd x)) (map (fun t => (sm_proba t, sm_times t)) T)) by (rewrite !map_map; reflexivity).
  rewrite D, N, P, xsum_all, xmsum_all, xlog_lik. unfold mc_n. cbn [x_mc mc_mat mc_lab mc_ini mc_name]. rewrite xmat_length, xnew_matrix.
  reflexivity.
Qed.

(** ** MDP *)

Definition x_stat_mdp (t : stat_mdp) : stat_mdp := mkStatMDP (xmat (sd_den t)) (xten (sd_num t)) (XF (sd_proba t)) (sd_times t).
Lemma x_dirak (oas : list (string * string)) a :
  map (fun oa => if String.eqb (snd oa) a then n1 else n0) oas = xvec (map (fun oa => if String.eqb (snd oa) a then n1 else n0) oas).
Proof. apply xmapv. intros oa. exact (xif _ 1 0). Qed.
Lemma x_work_MDP m tr t : processWork_MDP (x_mdp m) tr t = option_map x_stat_mdp (processWork_MDP m tr t).
Proof.
  unfold processWork_MDP, mdp_n. cbn [x_mdp mdp_mat mdp_ini mdp_act]. rewrite map_length. set (n := length (mdp_mat m)).
  change (mkMDP (map xmat (mdp_mat m)) (mdp_lab m) (mdp_act m) (xvec (mdp_ini m)) (mdp_name m)) with (x_mdp m).
  assert (F : Forall2 (fin_w n) (map (mdp_w (x_mdp m)) (pairs_of tr)) (map (mdp_w m) (pairs_of tr))) by (apply fin_map; intros o _ i j _ _; apply x_mdp_tau).
  assert (M : mdp_mask (x_mdp m) tr = xvec (mdp_mask m tr)).
  { unfold mdp_mask, mdp_n. cbn [x_mdp mdp_mat mdp_lab]. rewrite map_length. apply x_lab_mask. }
  rewrite (xalphas _ _ _ F), M, xmask, xones, xmulv, (xbetas _ _ _ _ F), xproba.
  set (al := mask_last _ _). set (be := bw_betas _ _ _).
  change (neqb (XF ?p) n0) with (Reqb p 0). change (neqb (proba_of al) n0) with (Reqb (proba_of al) 0).
  destruct (Reqb _ 0) eqn:E; [reflexivity|]. apply Reqb_false in E. cbn [option_map]. f_equal. unfold x_stat_mdp. cbn [sd_den sd_num sd_proba sd_times].
  change (@nofZ xr XNum t) with (XF (IZR t)). rewrite xdiv_fin by exact E. f_equal.
  - apply xbuildm. intros s _. apply xmapv. intros a. rewrite x_dirak, !xcoli, !xmulv, xscale. apply xnsum.
  - apply xbuildt. intros s _. apply xmapm. intros a. apply xbuild. intros ss _.
    rewrite x_dirak, (xmapv (pairs_of tr) _ (fun oa => mdp_tau m s (snd oa) ss (fst oa))) by (intros; apply x_mdp_tau).
    rewrite xcoli, xcolt, !xmulv, xscale. apply xnsum.
Qed.
Lemma x_round_MDP p set m : round_MDP p set (x_mdp m) = xres x_mdp (round_MDP p set m).
Proof.
  unfold round_MDP, update_MDP. rewrite (xrun x_stat_mdp p (processWork_MDP m)) by (intros; apply x_work_MDP). rewrite xunwrap.
  destruct (unwrap _) as [temp|]; [|reflexivity]. cbn [bind]. destruct temp as [|t0 temp]; [reflexivity|]. set (T := t0 :: temp).
  destruct (map x_stat_mdp T) as [|g0 gs] eqn:ET; [discriminate|]. rewrite <- ET. clear ET.
  assert (D : map sd_den (map x_stat_mdp T) = map xmat (map sd_den T)) by (rewrite !map_map; reflexivity).
  assert (N : map sd_num (map x_stat_mdp T) = map xten (map sd_num T)) by (rewrite !map_map; reflexivity).
  assert (P : map (fun t => (sd_proba t, sd_times t)) (map x_stat_mdp T) = map (fun x => (XF (fst x), snd x)) (map (fun t => (sd_proba t, sd_times t)) T)) by (rewrite !map_map; reflexivity).
  rewrite D, N, P, xmsum_all, xtsum_all, xlog_lik. unfold mdp_n. cbn [x_mdp mdp_mat mdp_lab mdp_ini mdp_name mdp_act xres]. rewrite map_length.
  f_equal. f_equal. unfold x_mdp. cbn [mdp_mat mdp_lab mdp_ini mdp_name mdp_act]. f_equal.
  apply xbuildt. intros s _. apply xbuildm. intros a _. rewrite xmget, xlay, xrow. change (map xmat (mdp_mat m)) with (xten (mdp_mat m)). rewrite xlay, xrow. apply xnew_row.
Qed.

(** ** CTMC *)

Lemma x_fixed (fixed : list (list bool)) s ss (x : R) (y : xr) : y = XF x -> (if fixed_get fixed s ss then n0 else y) = XF (if fixed_get fixed s ss then n0 else x).
Proof. intros ->. destruct (fixed_get _ _ _); reflexivity. Qed.
Lemma xcombine (obs : list string) (ts : list R) : combine obs (xvec ts) = map (fun ot => (fst ot, XF (snd ot))) (combine obs ts).
Proof. revert ts. induction obs as [|o obs IH]; intros [|t ts]; try reflexivity. cbn in *. f_equal. apply IH. Qed.
Lemma x_exp m s t : nexp (nsub n0 (nmul (ct_e (x_ctmc m) s) (XF t))) = XF (nexp (nsub n0 (nmul (ct_e m s) t))).
Proof. rewrite x_ct_e. reflexivity. Qed.
Lemma x_ct_w m ot i j : ct_w (x_ctmc m) (fst ot, XF (snd ot)) i j = XF (ct_w m ot i j).
Proof. unfold ct_w. cbn [fst snd]. rewrite x_exp, x_ct_l. reflexivity. Qed.
Lemma x_work_CT m fixed tr t : processWork_CTMC_timed (x_ctmc m) fixed (xtimed tr) t = option_map x_stat (processWork_CTMC_timed m fixed tr t).
Proof.
  destruct tr as [obs ts]. unfold processWork_CTMC_timed, ct_n, xtimed. cbn [fst snd]. 
  rewrite xcombine. set (ots := combine _ _). set (ots' := map (fun ot => (fst ot, XF (snd ot))) ots).
  cbn [x_ctmc ct_mat ct_ini ct_lab]. rewrite xmat_length. set (n := length (ct_mat m)).
  change (mkCTMC (xmat (ct_mat m)) (ct_lab m) (xvec (ct_ini m)) (ct_name m)) with (x_ctmc m).
  assert (F : Forall2 (fin_w n) (map (ct_w (x_ctmc m)) ots') (map (ct_w m) ots)).
  { unfold ots'. rewrite map_map. apply fin_map. intros o _ i j _ _. apply x_ct_w. }
  rewrite (xalphas _ _ _ F), x_lab_mask, xmask, xones, xmulv, (xbetas _ _ _ _ F), xproba.
  set (al := mask_last _ _). set (be := bw_betas _ _ _).
  change (neqb (XF ?p) n0) with (Reqb p 0). change (neqb (proba_of al) n0) with (Reqb (proba_of al) 0).
  destruct (Reqb _ 0) eqn:E; [reflexivity|]. apply Reqb_false in E. cbn [option_map]. f_equal. unfold x_stat. cbn [sm_den sm_num sm_proba sm_times].
  change (@nofZ xr XNum t) with (XF (IZR t)). rewrite xdiv_fin by exact E. f_equal.
  - apply xbuild. intros s _. assert (Q : map snd ots' = xvec (map snd ots)) by (unfold ots', xvec; rewrite !map_map; reflexivity).
    rewrite Q, !xcoli, !xmulv, xscale. apply xnsum.
  - apply xbuildm. intros s _. apply xbuild. intros ss _. apply x_fixed.
    assert (Q : map (fun ot => nmul (ct_l (x_ctmc m) s ss (fst ot)) (nexp (nsub n0 (nmul (ct_e (x_ctmc m) s) (snd ot))))) ots' =
                xvec (map (fun ot => nmul (ct_l m s ss (fst ot)) (nexp (nsub n0 (nmul (ct_e m s) (snd ot))))) ots)).
    { unfold ots'. rewrite map_map. apply xmapv. intros ot. cbn [fst snd]. rewrite x_exp, x_ct_l. reflexivity. }
    rewrite Q. apply xstat_num.
Qed.
Lemma x_work_CU m fixed tr t : (forall s, (s < ct_n m)%nat -> ct_e m s <> 0) ->
  processWork_CTMC_untimed (x_ctmc m) fixed tr t = option_map x_stat (processWork_CTMC_untimed m fixed tr t).
Proof.
  intros NZ. unfold processWork_CTMC_untimed. unfold ct_n. cbn [x_ctmc ct_mat ct_ini]. rewrite xmat_length. fold (ct_n m). set (n := ct_n m).
  change (mkCTMC (xmat (ct_mat m)) (ct_lab m) (xvec (ct_ini m)) (ct_name m)) with (x_ctmc m).
  assert (F : Forall2 (fin_w n) (map (fun o ss s => ct_tau (x_ctmc m) ss s o) tr) (map (fun o ss s => ct_tau m ss s o) tr)).
  { apply (fin_map n tr (fun o ss s => ct_tau (x_ctmc m) ss s o) (fun o ss s => ct_tau m ss s o)). intros o _ i j Hi _. apply x_ct_tau. apply NZ. exact Hi. }
  rewrite (xalphas _ _ _ F), xones, (xbetas _ _ _ _ F), xproba.
  set (al := bw_alphas _ _ _). set (be := bw_betas _ _ _).
  change (neqb (XF ?p) n0) with (Reqb p 0). change (neqb (proba_of al) n0) with (Reqb (proba_of al) 0).
  destruct (Reqb _ 0) eqn:E; [reflexivity|]. apply Reqb_false in E. cbn [option_map]. f_equal. unfold x_stat. cbn [sm_den sm_num sm_proba sm_times].
  change (@nofZ xr XNum t) with (XF (IZR t)). rewrite xdiv_fin by exact E. f_equal.
  - apply xbuild. intros s _. apply xstat_den.
  - apply xbuildm. intros s Hs. apply xbuild. intros ss _. apply x_fixed.
    rewrite (xmapv tr _ (fun o => ndiv (ct_l m s ss o) (ct_e m s))) by (intros o; apply x_ct_tau; apply NZ; exact Hs). apply xstat_num.
Qed.
Lemma x_update_CT m fixed l : update_CTMC (x_ctmc m) fixed (map (option_map x_stat) l) = xres x_ctmc (update_CTMC m fixed l).
Proof.
  unfold update_CTMC. rewrite xunwrap.
  destruct (unwrap _) as [temp|]; [|reflexivity]. cbn [bind]. destruct temp as [|t0 temp]; [reflexivity|]. set (T := t0 :: temp).
  destruct (map x_stat T) as [|g0 gs] eqn:ET; [discriminate|]. rewrite <- ET. clear ET.
  assert (D : map sm_den (map x_stat T) = map xvec (map sm_den T)) by (rewrite !map_map; reflexivity).
  assert (N : map sm_num (map x_stat T) = map xmat (map sm_num T)) by (rewrite !map_map; reflexivity).
  assert (P : map (fun t => (sm_proba t, sm_times t)) (map x_stat T) = map (fun x => (XF (fst x), snd x)) (map (fun t => (sm_proba t, sm_times t)) T)) by (rewrite !map_map; reflexivity).
  rewrite D, N, P, xsum_all, xmsum_all, xlog_lik. unfold ct_n. cbn [x_ctmc ct_mat ct_lab ct_ini ct_name xres]. rewrite xmat_length, xnew_matrix.
  f_equal. f_equal. unfold x_ctmc. cbn [ct_mat ct_lab ct_ini ct_name]. f_equal.
  apply xbuildm. intros s _. apply xbuild. intros ss _. rewrite !xmget. destruct (fixed_get _ _ _); reflexivity.
Qed.
Definition xset (set : list (@timed R * Z)) : list (@timed xr * Z) := map (fun st => (xtimed (fst st), snd st)) set.
Lemma x_round_CT p fixed set m : round_CTMC_timed p fixed (xset set) (x_ctmc m) = xres x_ctmc (round_CTMC_timed p fixed set m).
Proof.
  unfold round_CTMC_timed. rewrite <- x_update_CT. f_equal. unfold xset.
  assert (G : forall l, runProcesses p (processWork_CTMC_timed (x_ctmc m) fixed) (map (fun st => (xtimed (fst st), snd st)) l) =
    runProcesses p (fun tr t => processWork_CTMC_timed (x_ctmc m) fixed (xtimed tr) t) l) by (intros l; unfold runProcesses; rewrite map_map; reflexivity).
  rewrite G. apply (xrun x_stat). intros s t _. apply x_work_CT.
Qed.
Lemma x_round_CU p fixed set m : (forall s, (s < ct_n m)%nat -> ct_e m s <> 0) ->
  round_CTMC_untimed p fixed set (x_ctmc m) = xres x_ctmc (round_CTMC_untimed p fixed set m).
Proof.
  intros NZ. unfold round_CTMC_untimed. rewrite <- x_update_CT. f_equal. apply (xrun x_stat). intros s t _. apply x_work_CU. exact NZ.
Qed.

(** ** HMM *)

Definition x_stat_hmm (t : stat_hmm) : stat_hmm :=
  mkStatHMM (xvec (sh_den t)) (xmat (sh_num_a t)) (xmat (sh_num_b t)) (XF (sh_proba t)) (sh_times t) (xvec (sh_init t)).
Lemma x_work_HMM m tr t : processWork_HMM (x_hmm m) tr t = option_map x_stat_hmm (processWork_HMM m tr t).
Proof.
  unfold processWork_HMM, hmm_n. cbn [x_hmm hmm_mat hmm_ini hmm_alph]. rewrite xmat_length. set (n := length (hmm_mat m)).
  change (mkHMM (xmat (hmm_mat m)) (xmat (hmm_out m)) (hmm_alph m) (xvec (hmm_ini m)) (hmm_name m)) with (x_hmm m).
  assert (F : Forall2 (fin_w n) (hmm_ws (x_hmm m) tr) (hmm_ws m tr)) by (apply fin_map; intros o _ i j _ _; apply x_hmm_tau).
  rewrite (xalphas _ _ _ F), xones, (xbetas _ _ _ _ F), xproba.
  set (al := bw_alphas _ _ _). set (be := bw_betas _ _ _).
  change (neqb (XF ?p) n0) with (Reqb p 0). change (neqb (proba_of al) n0) with (Reqb (proba_of al) 0).
  destruct (Reqb _ 0) eqn:E; [reflexivity|]. apply Reqb_false in E. cbn [option_map]. f_equal. unfold x_stat_hmm. cbn [sh_den sh_num_a sh_num_b sh_proba sh_times sh_init].
  change (@nofZ xr XNum t) with (XF (IZR t)). rewrite xdiv_fin by exact E. f_equal.
  - apply xbuild. intros s _. apply xstat_den.
  - apply xbuildm. intros s _. apply xbuild. intros ss _. rewrite (xmapv tr _ (fun o => hmm_tau m s ss o)) by (intros; apply x_hmm_tau). apply xstat_num.
  - apply xbuildm. intros s _. apply xmapv. intros o. rewrite !xcoli, xmulv, xscale.
    rewrite (xmapv tr _ (fun t => if String.eqb t o then n1 else n0)) by (intros; exact (xif _ 1 0)). rewrite xmulv. apply xnsum.
  - rewrite !xhd, xmulv. apply xscale.
Qed.
(** The new initial vector is divided by the weight of the possible traces. *)
Lemma init_total n (a : list R) ws : length a = n -> nsum (zipwith nmul a (hd [] (bw_betas n (vones n) ws))) = proba_of (bw_alphas n a ws).
Proof.
  intros La. rewrite (proba_model n a ws La).
  change (nsum (zipwith nmul a (hd [] (bw_betas n (vones n) ws)))) with (ndot a (hd [] (bw_betas n (vones n) ws))).
  rewrite (ndot_Sum _ _ n La (bw_betas_hd_length n _ ws (vones_length n))). unfold tot. apply Sum_ext. intros i Hi.
  rewrite bw_betas_hd by (auto using vones_length). f_equal. apply Bk_ext; [|exact Hi]. intros s Hs. apply vget_vones. exact Hs.
Qed.
Lemma nsum_scale (k : R) l : nsum (map (fun x => nmul x k) l) = nsum l * k.
Proof. toR. induction l as [|x l IH]; cbn [map]; [rewrite rsum_nil; ring|]. rewrite !rsum_cons, IH. nR. ring. Qed.
Lemma goods_init_pos {S T} (work : S -> Z -> option T) (init : T -> list R) n set : pos_times set ->
  (forall x t st, work x t = Some st -> length (init st) = n /\ rsum (init st) = IZR t) ->
  goods work set <> [] -> 0 < rsum (vsum_all (map init (goods work set))).
Proof.
  intros HT Hw NE. set (G := goods work set) in *.
  assert (L : forall v, In v (map init G) -> length v = n).
  { intros v I. apply in_map_iff in I. destruct I as [st [<- I]]. apply In_goods in I. destruct I as [[x t] [_ E]]. apply (Hw x t st E). }
  destruct (vsum_all_spec (map init G) n) as [Ln En]; [destruct G; [congruence|discriminate]|exact L|].
  rewrite rsum_nth, Ln. rewrite (Sum_ext n _ (fun i => sumL G (fun st => vget (init st) i))) by (intros i Hi; change (nth i (vsum_all (map init G)) 0) with (vget (vsum_all (map init G)) i); rewrite En by exact Hi; apply sumL_map).
  unfold Sum. rewrite sumL_swap.
  assert (E : forall st, In st G -> exists t, (0 < t)%Z /\ sumL (seq 0 n) (fun i => vget (init st) i) = IZR t).
  { intros st I. apply In_goods in I. destruct I as [[x t] [Ix E]]. destruct (Hw x t st E) as [Li Ei]. exists t. split; [exact (HT _ Ix)|].
    rewrite <- Ei, rsum_nth, Li. reflexivity. }
  clear - E NE. destruct G as [|st G]; [congruence|]. rewrite sumL_cons. destruct (E st (or_introl eq_refl)) as [t [Ht ->]]. apply IZR_lt in Ht.
  assert (0 <= sumL G (fun st => sumL (seq 0 n) (fun i => vget (init st) i))); [|lra].
  apply sumL_nonneg. intros st' I. destruct (E st' (or_intror I)) as [t' [Ht' ->]]. apply IZR_lt in Ht'. lra.
Qed.
Lemma h_init m x t st : length (hmm_ini m) = hmm_n m -> processWork_HMM m x t = Some st -> length (sh_init st) = hmm_n m /\ rsum (sh_init st) = IZR t.
Proof.
  intros Li. unfold processWork_HMM. destruct (neqb _ n0) eqn:E; [discriminate|]. apply Reqb_false in E. intros [= <-]. cbn [sh_init]. rewrite bw_alphas_hd. split.
  - rewrite map_length, zipwith_length, bw_betas_hd_length by apply vones_length. lia.
  - change (rsum ?l) with (nsum l). rewrite nsum_scale, init_total by exact Li. nR. field. exact E.
Qed.
Lemma x_round_HMM p set m : length (hmm_ini m) = hmm_n m -> pos_times set ->
  round_HMM p set (x_hmm m) = xres x_hmm (round_HMM p set m).
Proof.
  intros Li HT. unfold round_HMM, update_HMM. rewrite (xrun x_stat_hmm p (processWork_HMM m)) by (intros; apply x_work_HMM). rewrite xunwrap.
  destruct (unwrap _) as [temp|] eqn:EU; [|reflexivity]. cbn [bind]. apply unwrap_run in EU. destruct temp as [|t0 temp]; [reflexivity|]. set (T := t0 :: temp) in *.
  assert (Z : nsum (vsum_all (map sh_init T)) <> 0).
  { apply Rgt_not_eq. rewrite EU. apply (goods_init_pos _ sh_init (hmm_n m) set HT); [|rewrite <- EU; discriminate]. intros x t st. apply h_init. exact Li. }
  destruct (map x_stat_hmm T) as [|g0 gs] eqn:ET; [discriminate|]. rewrite <- ET. clear ET EU.
  assert (D : map sh_den (map x_stat_hmm T) = map xvec (map sh_den T)) by (rewrite !map_map; reflexivity).
  assert (N : map sh_num_a (map x_stat_hmm T) = map xmat (map sh_num_a T)) by (rewrite !map_map; reflexivity).
  assert (Nb : map sh_num_b (map x_stat_hmm T) = map xmat (map sh_num_b T)) by (rewrite !map_map; reflexivity).
  assert (Ni : map sh_init (map x_stat_hmm T) = map xvec (map sh_init T)) by (rewrite !map_map; reflexivity).
  assert (P : map (fun t => (sh_proba t, sh_times t)) (map x_stat_hmm T) = map (fun x => (XF (fst x), snd x)) (map (fun t => (sh_proba t, sh_times t)) T)) by (rewrite !map_map; reflexivity).
  rewrite D, N, Nb, Ni, P, !xsum_all, !xmsum_all, xlog_lik. unfold hmm_n in *. cbn [x_hmm hmm_mat hmm_ini hmm_alph hmm_out hmm_name xres]. rewrite xmat_length, xnew_matrix.
  f_equal. f_equal. unfold x_hmm. cbn [hmm_mat hmm_ini hmm_alph hmm_out hmm_name]. f_equal.
  - apply xbuildm. intros s _. rewrite xget, !xrow. apply xnew_row.
  - apply xbuild. intros s _. rewrite xget, xnsum. apply xdiv_fin. exact Z.
Qed.
