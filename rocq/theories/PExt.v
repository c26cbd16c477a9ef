(** Theorems C152: in numpy's arithmetic with infinities and nan (without
    rounding), learning and scoring models with finite numbers only meets finite
    numbers; except for untimed traces of CTMCs with an absorbing state. *)
From Coq Require Import String ZArith Bool Reals List Lia Lra.
From Verif Require Import Num Py SNum LSum LTools MSet SSet MModels MLik MBW SBW SLik LFB LEM LBW LBWMC LBWLoop LLik LLik2 PLik PBWMC PBWCT PBWCTU MExt LExt LExt2 LExt3.
Import ListNotations.
Local Open Scope R_scope.

(** ** Runs of Baum-Welch *)

(** The result of a run, seen in the larger set of numbers: all its numbers are
    finite. *)
Definition xrun_of {A B} (f : A -> B) (r : res (A * nat * option R * bool)) : res (B * nat * option xr * bool) :=
  match r with Ok (m, c, l, b) => Ok (f m, c, option_map XF l, b) | Err e => Err e end.

Lemma x_loop {A B} (f : A -> B) (I : A -> Prop) (round : A -> res (A * R)) (round' : B -> res (B * xr)) eps :
  (forall m, I m -> round' (f m) = xres f (round m)) -> (forall m m' l, I m -> round m = Ok (m', l) -> I m') ->
  forall fuel prev c m, I m -> bw_loop round' (XF eps) fuel (option_map XF prev) c (f m) = xrun_of f (bw_loop round eps fuel prev c m).
Proof.
  intros HR HI. induction fuel as [|fuel IH]; intros prev c m Im; [reflexivity|]. cbn [bw_loop]. rewrite (HR m Im). destruct (round m) as [[m' l]|] eqn:E; [|reflexivity]. cbn [xres bind].
  assert (S : (match option_map XF prev with None => false | Some p => nltb (nsub (XF l) p) (XF eps) end) = (match prev with None => false | Some p => nltb (nsub l p) eps end)).
  { destruct prev as [p|]; reflexivity. }
  rewrite S. destruct (match prev with None => false | Some p => _ end); [reflexivity|]. apply (IH (Some l)). exact (HI m m' l Im E).
Qed.

(** C152, learning: the run computed with infinities and nan is the run computed with
    real numbers.  MCs, MDPs and CTMCs on timed traces: whatever the matrix. *)
Theorem C152_mc_fit_finite : forall (m : mc R) (p max_it : nat) set (eps : R),
  bw_loop (round_MC p set) (XF eps) max_it None 0 (x_mc m) = xrun_of x_mc (bw_loop (round_MC p set) eps max_it None 0 m).
Proof. intros m p mx set eps. apply (x_loop x_mc (fun _ => True)) with (prev := None); auto. intros; apply x_round_MC. Qed.
Print Assumptions C152_mc_fit_finite.
Theorem C152_mdp_fit_finite : forall (m : mdp R) (p max_it : nat) set (eps : R),
  bw_loop (round_MDP p set) (XF eps) max_it None 0 (x_mdp m) = xrun_of x_mdp (bw_loop (round_MDP p set) eps max_it None 0 m).
Proof. intros m p mx set eps. apply (x_loop x_mdp (fun _ => True)) with (prev := None); auto. intros; apply x_round_MDP. Qed.
Print Assumptions C152_mdp_fit_finite.
Theorem C152_ctmc_timed_fit_finite : forall (m : ctmc R) (fixed : list (list bool)) (p max_it : nat) set (eps : R),
  bw_loop (round_CTMC_timed p fixed (xset set)) (XF eps) max_it None 0 (x_ctmc m) =
  xrun_of x_ctmc (bw_loop (round_CTMC_timed p fixed set) eps max_it None 0 m).
Proof. intros m fixed p mx set eps. apply (x_loop x_ctmc (fun _ => True)) with (prev := None); auto. intros; apply x_round_CT. Qed.
Print Assumptions C152_ctmc_timed_fit_finite.

Lemma hmm_round_ini p set (m m' : hmm R) ll : round_HMM p set m = Ok (m', ll) -> length (hmm_ini m') = hmm_n m'.
Proof.
  unfold round_HMM, update_HMM. destruct (unwrap _) as [temp|]; [|discriminate]. cbn [bind]. destruct temp; [discriminate|]. intros [= <- _].
  unfold hmm_n, new_matrix. cbn [hmm_ini hmm_mat]. rewrite !vbuild_length. reflexivity.
Qed.
Theorem C152_hmm_fit_finite : forall (m : hmm R) (p max_it : nat) set (eps : R),
  length (hmm_ini m) = hmm_n m -> pos_times set ->
  bw_loop (round_HMM p set) (XF eps) max_it None 0 (x_hmm m) = xrun_of x_hmm (bw_loop (round_HMM p set) eps max_it None 0 m).
Proof.
  intros m p mx set eps Li HT. apply (x_loop x_hmm (fun m => length (hmm_ini m) = hmm_n m)) with (prev := None); auto.
  - intros x Lx. apply x_round_HMM; assumption.
  - intros x x' l _ E. exact (hmm_round_ini p set x x' l E).
Qed.
Print Assumptions C152_hmm_fit_finite.
Theorem C152_gohmm_fit_finite : forall (m : gohmm R) (p d max_it : nat) set (eps : R),
  nonneg_mat (go_mat m) -> nonneg (go_ini m) -> length (go_ini m) = go_n m ->
  (forall s k, 0 <= stddev m s k) -> pos_times set ->
  bw_loop (round_GoHMM p d (map (fun st => (xmat (fst st), snd st)) set)) (XF eps) max_it None 0 (x_go m) =
  xrun_of x_go (bw_loop (round_GoHMM p d set) eps max_it None 0 m).
Proof.
  intros m p d mx set eps Hm Hi Li Hs HT. apply (x_loop x_go nn_go) with (prev := None).
  - intros x Nx. apply (x_round_GO p d set x Nx HT).
  - intros x x' l Nx E. exact (proj2 (x_round_GO p d set x Nx HT) x' l E).
  - split; [exact Hm|]. split; [exact Hi|]. split; [exact Hs|exact Li].
Qed.
Print Assumptions C152_gohmm_fit_finite.
(** CTMCs on untimed traces: when every state can be left. *)
Theorem C152_ctmc_untimed_fit_finite : forall (m : ctmc R) (fixed : list (list bool)) (p max_it : nat) set (eps : R),
  wf_ctmc m -> nonneg_mat (ct_mat m) -> (forall s, (s < ct_n m)%nat -> 0 < exit_rate m s) -> no_fixed fixed -> pos_times set ->
  bw_loop (round_CTMC_untimed p fixed set) (XF eps) max_it None 0 (x_ctmc m) =
  xrun_of x_ctmc (bw_loop (round_CTMC_untimed p fixed set) eps max_it None 0 m).
Proof.
  intros m fixed p mx set eps W N Lv NF HT. apply (x_loop x_ctmc (fun x => ct_ok x /\ live x)) with (prev := None).
  - intros x [Ox Lx]. apply x_round_CU. intros s Hs. apply Rgt_not_eq. exact (Lx s Hs).
  - intros x x' l [Ox Lx] E. destruct (round_untimed x fixed p set x' l Ox Lx NF HT E) as (_ & O' & L' & _). split; assumption.
  - split; [split; assumption|exact Lv].
Qed.
Print Assumptions C152_ctmc_untimed_fit_finite.

(** ** An absorbing state and untimed traces *)

Lemma xn_add_r x : nadd x XN = XN. Proof. destruct x; reflexivity. Qed.
Lemma xn_mul_r x : nmul x XN = XN. Proof. destruct x; reflexivity. Qed.
Lemma xn_div_r x : ndiv x XN = XN. Proof. destruct x; reflexivity. Qed.
Lemma xn_sum l : In XN l -> nsum l = XN.
Proof. induction l as [|x l IH]; intros I; [destruct I|]. change (nadd x (nsum l) = XN). destruct I as [->|I]; [reflexivity|]. rewrite IH by exact I. apply xn_add_r. Qed.
Lemma zip_nth_in {A B C} (f : A -> B -> C) l m i da db : (i < length l)%nat -> (i < length m)%nat -> In (f (nth i l da) (nth i m db)) (zipwith f l m).
Proof. revert m i. induction l as [|x l IH]; intros [|y m] [|i] Hl Hm; cbn in *; try lia; [left; reflexivity|]. right. apply IH; lia. Qed.

(** A model with a state all of whose transitions have probability nan. *)
Definition spoiled (m : ctmc xr) : Prop :=
  length (ct_ini m) = ct_n m /\ exists s0, (s0 < ct_n m)%nat /\ forall ss o, (ss < ct_n m)%nat -> ct_tau m s0 ss o = XN.

Lemma build_const {A} n (x : A) : vbuild n (fun _ => x) = repeat x n.
Proof. unfold vbuild. generalize 0%nat. induction n as [|k IH]; intros a; [reflexivity|]. cbn. f_equal. apply IH. Qed.
Lemma nan_step n prev w s0 : length prev = n -> (s0 < n)%nat -> (forall ss, (ss < n)%nat -> w s0 ss = XN) -> fstep n prev w = repeat XN n.
Proof.
  intros L H0 HW. unfold fstep. rewrite (map_seq_ext n _ (fun _ => XN)).
  - apply build_const.
  - intros s Hs. unfold ndot. apply xn_sum.
    assert (Q : nmul (nth s0 prev XN) (nth s0 (vbuild n (fun ss => w ss s)) XN) = XN).
    { rewrite vbuild_nth by exact H0. rewrite HW by exact Hs. apply xn_mul_r. }
    rewrite <- Q. apply zip_nth_in; [lia|unfold vbuild; rewrite map_length, seq_length; exact H0].
Qed.
Lemma nan_fold n s0 (ws : list (nat -> nat -> xr)) : (s0 < n)%nat -> Forall (fun w => forall ss, (ss < n)%nat -> w s0 ss = XN) ws ->
  forall prev, length prev = n -> ws <> [] -> fold_left (fstep n) ws prev = repeat XN n.
Proof.
  intros H0 F. induction F as [|w ws HW F IH]; intros prev L NE; [congruence|]. cbn. rewrite (nan_step n prev w s0 L H0 HW).
  destruct ws as [|w2 ws]; [reflexivity|]. apply IH; [apply repeat_length|discriminate].
Qed.
Lemma nan_total n : (0 < n)%nat -> nsum (repeat XN n) = XN.
Proof. intros Hn. apply xn_sum. destruct n; [lia|]. left. reflexivity. Qed.
Lemma nan_scale l : l <> [] -> nsum (map (fun x => nmul x XN) l) = XN.
Proof. intros NE. apply xn_sum. destruct l as [|x l]; [congruence|]. left. apply xn_mul_r. Qed.
Lemma ne_len {A} (l : list A) : (0 < length l)%nat -> l <> []. Proof. destruct l; [cbn; lia|discriminate]. Qed.
Lemma xbetas_length n (f : list xr) ws : length (bw_betas n f ws) = S (length ws).
Proof. induction ws as [|w ws IH]; [reflexivity|]. cbn [bw_betas length]. f_equal. exact IH. Qed.
Lemma but_length {A} (l : list A) : length (removelast l) = pred (length l).
Proof. induction l as [|x [|y l] IH]; [reflexivity|reflexivity|]. cbn in *. f_equal. exact IH. Qed.
Lemma last_alphas {K} `{Num K} n (a : list K) ws : last (bw_alphas n a ws) [] = fold_left (fstep n) ws a.
Proof. rewrite bw_alphas_snoc. apply last_last. Qed.

(** The statistics of every non-empty trace: nan everywhere, but for the fixed
    entries. *)
Lemma nan_work (m : ctmc xr) fixed tr t : spoiled m -> tr <> [] ->
  exists num, processWork_CTMC_untimed m fixed tr t = Some (mkStatMC (repeat XN (ct_n m)) num XN t).
Proof.
  intros [Li [s0 [H0 HN]]] NE. unfold processWork_CTMC_untimed.
  set (n := ct_n m) in *. set (ws := map (fun o ss s => ct_tau m ss s o) tr).
  assert (P : proba_of (bw_alphas n (ct_ini m) ws) = XN).
  { unfold proba_of. rewrite last_alphas, (nan_fold n s0); [apply nan_total; lia|exact H0| |exact Li|].
    - apply Forall_forall. intros w I. apply in_map_iff in I. destruct I as [o [<- _]]. intros ss Hs. apply HN. exact Hs.
    - unfold ws. destruct tr; [congruence|discriminate]. }
  rewrite P. cbn [neqb XNum xeqb n0]. eexists. f_equal. f_equal.
  rewrite (map_seq_ext n _ (fun _ => XN)).
  - apply build_const.
  - intros s Hs. unfold stat_den. rewrite xn_div_r. apply nan_scale. apply ne_len.
    assert (0 < length tr)%nat by (destruct tr; [congruence|cbn; lia]).
    unfold col_init. rewrite zipwith_length, !map_length, !but_length, bw_alphas_length, xbetas_length. unfold ws. rewrite map_length. cbn. lia.
Qed.

Lemma nan_addv n l : length l = n -> vadd (repeat XN n) l = repeat XN n.
Proof. revert l. unfold vadd. induction n as [|k IH]; intros [|x l] L; try discriminate; [reflexivity|]. cbn [repeat zipwith]. f_equal. apply IH. cbn in L. lia. Qed.
Lemma nan_vsum n (l : list (list xr)) : l <> [] -> (forall v, In v l -> v = repeat XN n) -> vsum_all l = repeat XN n.
Proof.
  destruct l as [|x l]; [congruence|]. intros _ Hl. cbn [vsum_all]. rewrite (Hl x) by (left; reflexivity).
  assert (Hr : forall v, In v l -> v = repeat XN n) by (intros; apply Hl; right; assumption). clear Hl. induction l as [|y l IH]; [reflexivity|]. cbn [fold_left].
  rewrite (Hr y) by (left; reflexivity). rewrite nan_addv by apply repeat_length. apply IH. intros v I. apply Hr. right. exact I.
Qed.
Lemma nth_repeat_lt {A} (x d : A) n i : (i < n)%nat -> nth i (repeat x n) d = x.
Proof. revert i. induction n as [|k IH]; intros [|i] Hi; cbn; try lia; [reflexivity|apply IH; lia]. Qed.
Lemma unwrap_some {T} (l : list T) : unwrap (map Some l) = Ok l.
Proof. unfold unwrap. induction l as [|x l IH]; [reflexivity|]. cbn in *. rewrite IH. reflexivity. Qed.
Lemma run_all_some {S T} p (work : S -> Z -> option T) (set : list (S * Z)) g : (forall x t, In (x, t) set -> work x t = Some (g x t)) ->
  runProcesses p work set = map Some (map (fun st => g (fst st) (snd st)) set).
Proof.
  intros E. unfold runProcesses. assert (M : map (fun st => work (fst st) (snd st)) set = map Some (map (fun st => g (fst st) (snd st)) set)).
  { rewrite map_map. apply map_ext_in. intros [x t] I. apply E. exact I. }
  rewrite M. destruct (1 <? p)%nat; [|reflexivity]. generalize (map (fun st => g (fst st) (snd st)) set). intros l. induction l as [|y l IH]; [reflexivity|]. cbn. f_equal. exact IH.
Qed.

(** The model with nan as every rate. *)
Definition nan_ctmc (m : ctmc xr) : ctmc xr := mkCTMC (repeat (repeat XN (ct_n m)) (ct_n m)) (ct_lab m) (ct_ini m) (ct_name m).
Lemma nan_round (m : ctmc xr) fixed p set : spoiled m -> set <> [] -> (forall tr t, In (tr, t) set -> tr <> []) ->
  round_CTMC_untimed p fixed set m = Ok (nan_ctmc m, XN).
Proof.
  intros Sp NE NT. unfold round_CTMC_untimed, update_CTMC.
  set (work := processWork_CTMC_untimed m fixed).
  set (g := fun tr t => match work tr t with Some st => st | None => mkStatMC [] [] XN t end).
  assert (W : forall tr t, In (tr, t) set -> work tr t = Some (g tr t) /\ sm_den (g tr t) = repeat XN (ct_n m) /\ sm_proba (g tr t) = XN).
  { intros tr t I. destruct (nan_work m fixed tr t Sp (NT tr t I)) as [num E]. unfold g. change (work tr t = Some (mkStatMC (repeat XN (ct_n m)) num XN t)) in E. rewrite E. repeat split. }
  rewrite (run_all_some p work set g) by (intros x t I; apply (W x t I)). rewrite unwrap_some. cbn [bind].
  set (G := map (fun st => g (fst st) (snd st)) set).
  destruct G as [|g0 gs] eqn:EG; [unfold G in EG; destruct set; [congruence|discriminate]|]. rewrite <- EG.
  assert (GN : forall st, In st G -> sm_den st = repeat XN (ct_n m) /\ sm_proba st = XN).
  { intros st I. apply in_map_iff in I. destruct I as [[tr t] [<- I]]. apply (W tr t I). }
  assert (D : vsum_all (map sm_den G) = repeat XN (ct_n m)).
  { apply nan_vsum; [rewrite EG; discriminate|]. intros v I. apply in_map_iff in I. destruct I as [st [<- I]]. apply (GN st I). }
  assert (Lk : log_lik (map (fun t => (sm_proba t, sm_times t)) G) = XN).
  { unfold log_lik. apply xn_sum. rewrite map_map. cbn [fst snd]. apply in_map_iff. exists g0.
    assert (I0 : In g0 G) by (rewrite EG; left; reflexivity). split; [|exact I0]. rewrite (proj2 (GN g0 I0)). reflexivity. }
  rewrite D, Lk. f_equal. f_equal. unfold nan_ctmc. f_equal.
  rewrite (map_seq_ext (ct_n m) _ (fun _ => repeat XN (ct_n m))); [apply build_const|].
  intros s Hs. rewrite (map_seq_ext (ct_n m) _ (fun _ => XN)); [apply build_const|]. intros ss Hss.
  assert (Q : mget (new_matrix (ct_n m) (repeat XN (ct_n m)) (msum_all (map sm_num G)) (ct_mat m)) s ss = XN).
  { assert (V : vget (repeat XN (ct_n m)) s = XN) by (apply nth_repeat_lt; exact Hs).
    unfold mget, new_matrix. rewrite vbuild_nth by exact Hs. rewrite V. unfold new_row. cbn [neqb XNum xeqb n0].
    unfold vget at 1. rewrite vbuild_nth by exact Hss. apply xn_div_r. }
  rewrite Q. apply xn_add_r.
Qed.
Lemma nan_spoiled (m : ctmc xr) : spoiled m -> spoiled (nan_ctmc m) /\ nan_ctmc (nan_ctmc m) = nan_ctmc m.
Proof.
  intros [Li [s0 [H0 _]]].
  assert (Ln : ct_n (nan_ctmc m) = ct_n m) by (unfold ct_n at 1; cbn [nan_ctmc ct_mat]; apply repeat_length).
  split; [|unfold nan_ctmc at 1; rewrite Ln; reflexivity].
  split; [rewrite Ln; exact Li|]. exists s0. rewrite Ln. split; [exact H0|]. intros ss o Hss.
  unfold ct_tau. assert (E : ct_e (nan_ctmc m) s0 = XN).
  { unfold ct_e. cbn [nan_ctmc ct_mat]. rewrite nth_repeat_lt by exact H0. apply nan_total. lia. }
  rewrite E. apply xn_div_r.
Qed.

(** Refuted for untimed traces as soon as one state cannot be left ([tau] divides 0
    by 0 there): every learned rate is nan, also those of the other states and the
    fixed ones, so is the reported score, and the run never converges: it
    lasts as many rounds as it is allowed to. *)
Theorem C152_ctmc_untimed_absorbing_refuted : forall (m : ctmc R) (fixed : list (list bool)) (p max_it : nat) set (eps : R) s0,
  wf_ctmc m -> (s0 < ct_n m)%nat -> (forall s', (s' < ct_n m)%nat -> rate m s0 s' = 0) ->
  set <> [] -> (forall tr t, In (tr, t) set -> tr <> []) -> (1 <= max_it)%nat ->
  bw_loop (round_CTMC_untimed p fixed set) (XF eps) max_it None 0 (x_ctmc m) =
  Ok (mkCTMC (repeat (repeat XN (ct_n m)) (ct_n m)) (ct_lab m) (xvec (ct_ini m)) (ct_name m), max_it, Some XN, false).
Proof.
  intros m fixed p mx set eps s0 W H0 HZ NE NT Hm.
  assert (Ln : ct_n (x_ctmc m) = ct_n m) by apply xmat_length.
  assert (Sp : spoiled (x_ctmc m)).
  { split; [rewrite Ln; cbn [x_ctmc ct_ini]; rewrite xvec_length; apply W|]. exists s0. rewrite Ln. split; [exact H0|]. intros ss o Hss.
    unfold ct_tau. rewrite x_ct_l, x_ct_e.
    assert (E0 : ct_e m s0 = 0). { unfold ct_e. toR. rewrite (row_sum_Sum (ct_mat m) (ct_n m) s0 (proj1 W) H0). rewrite (Sum_ext _ _ (fun _ => 0)) by (intros i Hi; exact (HZ i Hi)). apply Sum_zero. }
    assert (L0 : ct_l m s0 ss o = 0). { unfold ct_l. destruct (negb _); [reflexivity|]. exact (HZ ss Hss). }
    rewrite E0, L0. cbn. unfold signed. destruct (Req_EM_T 0 0); [|lra]. destruct (Rlt_dec 0 0); [lra|]. reflexivity. }
  destruct mx as [|mx]; [lia|]. cbn [bw_loop]. rewrite nan_round by assumption. cbn [bind].
  replace (mkCTMC (repeat (repeat XN (ct_n m)) (ct_n m)) (ct_lab m) (xvec (ct_ini m)) (ct_name m)) with (nan_ctmc (x_ctmc m)) by (unfold nan_ctmc; rewrite Ln; reflexivity).
  destruct (nan_spoiled _ Sp) as [Sp' Fx]. set (y := nan_ctmc (x_ctmc m)) in *. clearbody y. clear Sp Hm.
  assert (G : forall k c, bw_loop (round_CTMC_untimed p fixed set) (XF eps) k (Some XN) c y = Ok (y, (c + k)%nat, Some XN, false)).
  { induction k as [|k IH]; intros c; cbn [bw_loop]; [rewrite Nat.add_0_r; reflexivity|]. rewrite nan_round by assumption. cbn [bind]. rewrite Fx.
    change (nltb (nsub XN XN) (XF eps)) with false. cbn iota. rewrite IH. rewrite Nat.add_succ_r. reflexivity. }
  exact (G mx 1%nat).
Qed.
Print Assumptions C152_ctmc_untimed_absorbing_refuted.
