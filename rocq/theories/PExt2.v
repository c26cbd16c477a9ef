(** Theorems C152, scores: logLikelihood in arithmetic with infinities and nan. *)
From Coq Require Import String ZArith Bool Reals List Lia Lra.
From Verif Require Import Num Py SNum LSum LTools MSet SSet MModels MLik MBW SBW SLik LFB LEM LBW LBWMC LLik LLik2 PLik PBWMC PBWCT PBWCTU PBWGO SPath MExt LExt LExt2 LExt3 PExt.
Import ListNotations.
Local Open Scope R_scope.

(** A score, seen in the larger set of numbers. *)
Definition xscore (r : res R) : res xr := match r with Ok x => Ok (XF x) | Err e => Err e end.

Lemma x_log_times p t : log_times (XF p) t = option_map XF (log_times p t).
Proof. unfold log_times. change (nleb (XF p) n0) with (nleb p n0). destruct (nleb p n0); reflexivity. Qed.
Lemma x_not_false l : not_false (map (option_map XF) l) = xvec (not_false l).
Proof.
  unfold not_false, xvec. induction l as [|[x|] l IH]; [reflexivity| |exact IH]. cbn [map flat_map option_map].
  change (neqb (XF x) n0) with (neqb x n0). destruct (neqb x n0); [exact IH|]. cbn [app map]. f_equal. exact IH.
Qed.
Lemma x_mmap {A} (f : A -> res (option R)) (f' : A -> res (option xr)) l :
  (forall a, In a l -> f' a = match f a with Ok x => Ok (option_map XF x) | Err e => Err e end) ->
  mmap f' l = match mmap f l with Ok r => Ok (map (option_map XF) r) | Err e => Err e end.
Proof.
  induction l as [|a l IH]; intros E; [reflexivity|]. cbn. rewrite (E a) by (left; reflexivity). destruct (f a); [|reflexivity]. cbn.
  rewrite IH by (intros; apply E; right; assumption). destruct (mmap f l); reflexivity.
Qed.

(** The forward value of a trace. *)
Lemma x_model_prob {O P} (e : O -> P) n (tau : nat -> nat -> O -> R) (tau' : nat -> nat -> P -> xr) b b' ini sq :
  (forall o, In o sq -> fin_w n (fun i j => tau' i j (e o)) (fun i j => tau i j o)) -> (forall s o, (s < n)%nat -> In o sq -> b' s (e o) = XF (b s o)) ->
  model_prob n tau' b' (xvec ini) (map e sq) = xscore (model_prob n tau b ini sq).
Proof.
  intros Ht Hb. unfold model_prob. rewrite <- map_rev. destruct (rev sq) as [|lst bl] eqn:E; [reflexivity|]. cbn [map xscore].
  assert (In1 : forall o, In o (rev bl) -> In o sq) by (intros o I; apply in_rev; rewrite E; right; apply in_rev; exact I).
  assert (Il : In lst sq) by (apply in_rev; rewrite E; left; reflexivity).
  rewrite <- map_rev. set (l := rev bl) in *. clearbody l.
  assert (F : forall a, fold_left (fun prev o => fstep n prev (fun ss s => tau' ss s o)) (map e l) (xvec a) = xvec (fold_left (fun prev o => fstep n prev (fun ss s => tau ss s o)) l a)).
  { clear E. induction l as [|o l IH]; intros a; [reflexivity|]. cbn [map fold_left]. rewrite (xfstep n a _ (fun ss s => tau ss s o)) by (apply Ht, In1; left; reflexivity).
    apply IH. intros o' I. apply In1. right. exact I. }
  rewrite F, (xbuild n _ (fun s => b s lst)) by (intros s Hs; apply Hb; assumption). rewrite xmulv, xnsum. reflexivity.
Qed.
Lemma x_multiproc {O P} (e : O -> P) n tau tau' b b' ini (s : tset (list O)) (s' : tset (list P)) :
  seqs s' = map (map e) (seqs s) -> times s' = times s -> zsum (times s) <> 0%Z ->
  (forall sq o, In sq (seqs s) -> In o sq -> fin_w n (fun i j => tau' i j (e o)) (fun i j => tau i j o)) ->
  (forall sq st o, In sq (seqs s) -> (st < n)%nat -> In o sq -> b' st (e o) = XF (b st o)) ->
  model_multiproc n tau' b' (xvec ini) s' = xscore (model_multiproc n tau b ini s).
Proof.
  intros Es Et Hz Ht Hb. unfold model_multiproc. rewrite Es, Et.
  assert (C : combine (map (map e) (seqs s)) (times s) = map (fun st => (map e (fst st), snd st)) (combine (seqs s) (times s))).
  { generalize (seqs s), (times s). induction l as [|x l IH]; intros [|t ts]; try reflexivity. cbn. f_equal. apply IH. }
  rewrite C.
  assert (MM : forall l, (forall st, In st l -> In (fst st) (seqs s)) ->
    mmap (fun st => model_computeAlphas n tau' b' (xvec ini) (fst st) (snd st)) (map (fun st => (map e (fst st), snd st)) l) =
    match mmap (fun st => model_computeAlphas n tau b ini (fst st) (snd st)) l with Ok r => Ok (map (option_map XF) r) | Err e => Err e end).
  { intros l Hl. transitivity (mmap (fun st => model_computeAlphas n tau' b' (xvec ini) (map e (fst st)) (snd st)) l).
    - clear Hl. induction l as [|st l IH]; [reflexivity|]. cbn [map mmap fst snd]. destruct (model_computeAlphas _ _ _ _ _ _); [|reflexivity]. cbn [bind]. rewrite IH. reflexivity.
    - apply x_mmap. intros st I. unfold model_computeAlphas. rewrite (x_model_prob e n tau tau' b b') by (intros; eauto). destruct (model_prob n tau b ini (fst st)); [|reflexivity].
      cbn. f_equal. apply x_log_times. }
  rewrite MM by (intros [x t] I; apply in_combine_l in I; exact I). destruct (mmap _ _) as [r|]; [|reflexivity]. cbn [bind]. rewrite x_not_false, xnsum.
  change (neqb (XF ?x) n0) with (neqb x n0). destruct (neqb (nsum (not_false r)) n0); [reflexivity|]. cbn [xscore].
  change (@nofZ xr XNum ?z) with (XF (IZR z)). rewrite xdiv_fin; [reflexivity|]. apply not_0_IZR. exact Hz.
Qed.
Lemma map_id' {A} (l : list (list A)) : map (map (fun o => o)) l = l.
Proof. rewrite (map_ext _ (fun x => x)) by (intros; apply map_id). apply map_id. Qed.

(** C152, scores: MCs, HMMs and MDPs, with finite numbers. *)
Theorem C152_mc_score_finite : forall (m : mc R) (s : tset (list string)), zsum (times s) <> 0%Z ->
  mc_logLikelihood (x_mc m) s = xscore (mc_logLikelihood m s).
Proof.
  intros m s Hz. unfold mc_logLikelihood, mc_n. cbn [x_mc mc_mat mc_ini mc_lab]. rewrite xmat_length.
  change (mkMC (xmat (mc_mat m)) (mc_lab m) (xvec (mc_ini m)) (mc_name m)) with (x_mc m).
  apply (x_multiproc (fun o => o)); auto; [symmetry; apply map_id'| |]; intros.
  - intros i j _ _. apply x_mc_tau.
  - apply x_lab_b.
Qed.
Print Assumptions C152_mc_score_finite.
Theorem C152_hmm_score_finite : forall (m : hmm R) (s : tset (list string)), zsum (times s) <> 0%Z ->
  hmm_logLikelihood (x_hmm m) s = xscore (hmm_logLikelihood m s).
Proof.
  intros m s Hz. unfold hmm_logLikelihood. assert (Ln : hmm_n (x_hmm m) = hmm_n m) by apply xmat_length. rewrite Ln.
  apply (x_multiproc (fun o => o)); auto; [symmetry; apply map_id'| |]; intros.
  - intros i j _ _. apply x_hmm_tau.
  - apply x_hmm_b.
Qed.
Print Assumptions C152_hmm_score_finite.
Theorem C152_gohmm_score_finite : forall (m : gohmm R) (s : tset (list (list R))), zsum (times s) <> 0%Z ->
  go_logLikelihood (x_go m) (mkset (map xmat (seqs s)) (times s) (ty s)) = xscore (go_logLikelihood m s).
Proof.
  intros m s Hz. unfold go_logLikelihood. assert (Ln : go_n (x_go m) = go_n m) by apply xmat_length. rewrite Ln.
  apply (x_multiproc xvec); auto; intros.
  - intros i j _ _. apply x_go_tau.
  - apply x_go_b.
Qed.
Print Assumptions C152_gohmm_score_finite.
Theorem C152_ctmc_score_finite : forall (m : ctmc R) (s : tset (list string)), zsum (times s) <> 0%Z ->
  (forall st, (st < ct_n m)%nat -> exit_rate m st <> 0) ->
  ct_logLikelihood (x_ctmc m) s = xscore (ct_logLikelihood m s).
Proof.
  intros m s Hz NZ. unfold ct_logLikelihood. assert (Ln : ct_n (x_ctmc m) = ct_n m) by apply xmat_length. rewrite Ln.
  apply (x_multiproc (fun o => o)); auto; [symmetry; apply map_id'| |]; intros.
  - intros i j Hi _. apply x_ct_tau. exact (NZ i Hi).
  - apply x_lab_b.
Qed.
Print Assumptions C152_ctmc_score_finite.

Lemma x_fold_ot m n l : forall a, fold_left (fun prev ot => fstep n prev (ct_w (x_ctmc m) ot)) (map (fun ot => (fst ot, XF (snd ot))) l) (xvec a) =
  xvec (fold_left (fun prev ot => fstep n prev (ct_w m ot)) l a).
Proof. induction l as [|ot l IH]; intros a; [reflexivity|]. cbn [map fold_left]. rewrite (xfstep n a _ (ct_w m ot)) by (intros i j _ _; apply x_ct_w). apply IH. Qed.
Lemma x_prob_timed m tr : ct_prob_timed (x_ctmc m) (xtimed tr) = xscore (ct_prob_timed m tr).
Proof.
  destruct tr as [obs ts]. unfold ct_prob_timed, xtimed. cbn [fst snd]. rewrite xvec_length. assert (Ln : ct_n (x_ctmc m) = ct_n m) by apply xmat_length. rewrite Ln.
  destruct (rev obs) as [|lst bl]; [reflexivity|]. destruct (_ <? _)%nat; [reflexivity|]. cbn [xscore]. rewrite xcombine.
  cbn [x_ctmc ct_ini ct_lab]. change (mkCTMC (xmat (ct_mat m)) (ct_lab m) (xvec (ct_ini m)) (ct_name m)) with (x_ctmc m).
  rewrite x_fold_ot, x_lab_mask, xmulv, xnsum. reflexivity.
Qed.
Theorem C152_ctmc_timed_score_finite : forall (m : ctmc R) (set : list (timed * Z)), zsum (map snd set) <> 0%Z ->
  ct_logLikelihood_timed (x_ctmc m) (xset set) = xscore (ct_logLikelihood_timed m set).
Proof.
  intros m set Hz. unfold ct_logLikelihood_timed, xset.
  assert (MM : forall l, mmap (fun st => ct_computeAlphas_timed (x_ctmc m) (fst st) (snd st)) (map (fun st => (xtimed (fst st), snd st)) l) =
    match mmap (fun st => ct_computeAlphas_timed m (fst st) (snd st)) l with Ok r => Ok (map (option_map XF) r) | Err e => Err e end).
  { intros l. transitivity (mmap (fun st => ct_computeAlphas_timed (x_ctmc m) (xtimed (fst st)) (snd st)) l).
    - induction l as [|st l IH]; [reflexivity|]. cbn [map mmap fst snd]. destruct (ct_computeAlphas_timed _ _ _); [|reflexivity]. cbn [bind]. rewrite IH. reflexivity.
    - apply x_mmap. intros st _. unfold ct_computeAlphas_timed. rewrite x_prob_timed. destruct (ct_prob_timed m (fst st)); [|reflexivity]. cbn. f_equal. apply x_log_times. }
  rewrite MM. destruct (mmap _ _) as [r|]; [|reflexivity]. cbn [bind]. rewrite x_not_false, map_map. cbn [snd].
  destruct (not_false r) as [|y l] eqn:E; [reflexivity|]. cbn [xvec map]. change (XF y :: map XF l) with (xvec (y :: l)). rewrite xnsum. cbn [xscore].
  change (@nofZ xr XNum ?z) with (XF (IZR z)). rewrite xdiv_fin; [reflexivity|]. apply not_0_IZR. exact Hz.
Qed.
Print Assumptions C152_ctmc_timed_score_finite.

Lemma x_fold_oa m n l : forall a, fold_left (fun prev oa => fstep n prev (mdp_w (x_mdp m) oa)) l (xvec a) =
  xvec (fold_left (fun prev oa => fstep n prev (mdp_w m oa)) l a).
Proof. induction l as [|oa l IH]; intros a; [reflexivity|]. cbn [fold_left]. rewrite (xfstep n a _ (mdp_w m oa)) by (intros i j _ _; apply x_mdp_tau). apply IH. Qed.
Theorem C152_mdp_score_finite : forall (m : mdp R) (s : tset (list string)), zsum (times s) <> 0%Z ->
  mdp_logLikelihood (x_mdp m) s = xscore (mdp_logLikelihood m s).
Proof.
  intros m s Hz. unfold mdp_logLikelihood.
  assert (MP : forall sq, mdp_prob (x_mdp m) sq = xscore (mdp_prob m sq)).
  { intros sq. unfold mdp_prob. assert (Ln : mdp_n (x_mdp m) = mdp_n m) by apply map_length. rewrite Ln. destruct (rev sq); [reflexivity|]. cbn [xscore].
    cbn [x_mdp mdp_ini mdp_lab]. change (mkMDP (map xmat (mdp_mat m)) (mdp_lab m) (mdp_act m) (xvec (mdp_ini m)) (mdp_name m)) with (x_mdp m).
    rewrite x_fold_oa, x_lab_mask, xmulv, xnsum. reflexivity. }
  assert (MM : forall l, mmap (fun st => mdp_computeAlphas (x_mdp m) (fst st) (snd st)) l =
    match mmap (fun st => mdp_computeAlphas m (fst st) (snd st)) l with Ok r => Ok (xvec r) | Err e => Err e end).
  { induction l as [|st l IH]; [reflexivity|]. cbn [mmap]. rewrite IH. unfold mdp_computeAlphas. rewrite MP. destruct (mdp_prob m (fst st)) as [q|]; [|reflexivity]. cbn [xscore bind].
    change (neqb (XF q) n0) with (neqb q n0). match goal with |- context [mmap ?f l] => destruct (mmap f l) end; [|reflexivity]. cbn [bind xvec map].
    destruct (neqb q n0); reflexivity. }
  rewrite MM. destruct (mmap _ _) as [r|]; [|reflexivity]. cbn [bind xscore]. f_equal.
  assert (Q : map Some (xvec r) = map (option_map XF) (map Some r)) by (unfold xvec; rewrite !map_map; reflexivity).
  rewrite Q, x_not_false, xnsum. change (@nofZ xr XNum ?z) with (XF (IZR z)). rewrite xdiv_fin; [reflexivity|]. apply not_0_IZR. exact Hz.
Qed.
Print Assumptions C152_mdp_score_finite.

(** Refuted for CTMCs with an absorbing state: one trace with two observations
    is enough for the score of the whole set to be nan. *)
Theorem C152_ctmc_absorbing_score_refuted : forall (m : ctmc R) (s : tset (list string)) s0 tr,
  wf_ctmc m -> (s0 < ct_n m)%nat -> (forall s', (s' < ct_n m)%nat -> rate m s0 s' = 0) ->
  length (times s) = length (seqs s) -> ~ In [] (seqs s) -> In tr (seqs s) -> (2 <= length tr)%nat ->
  ct_logLikelihood (x_ctmc m) s = Ok XN.
Proof.
  intros m s s0 tr W H0 HZ L NE Itr Htr. unfold ct_logLikelihood, model_multiproc. assert (Ln : ct_n (x_ctmc m) = ct_n m) by apply xmat_length. rewrite Ln. set (n := ct_n m) in *.
  assert (TN : forall ss o, (ss < n)%nat -> ct_tau (x_ctmc m) s0 ss o = XN).
  { intros ss o Hss. unfold ct_tau. rewrite x_ct_l, x_ct_e.
    assert (E0 : ct_e m s0 = 0). { unfold ct_e. toR. rewrite (row_sum_Sum (ct_mat m) (ct_n m) s0 (proj1 W) H0). rewrite (Sum_ext _ _ (fun _ => 0)) by (intros i Hi; exact (HZ i Hi)). apply Sum_zero. }
    assert (L0 : ct_l m s0 ss o = 0). { unfold ct_l. destruct (negb _); [reflexivity|]. exact (HZ ss Hss). }
    rewrite E0, L0. cbn. unfold signed. destruct (Req_EM_T 0 0); [|lra]. destruct (Rlt_dec 0 0); [lra|]. reflexivity. }
  set (b := lab_b (ct_lab (x_ctmc m))). set (f := fun st : list string * Z => model_computeAlphas n (ct_tau (x_ctmc m)) b (ct_ini (x_ctmc m)) (fst st) (snd st)).
  assert (Ok1 : forall st, fst st <> [] -> exists r, f st = Ok r).
  { intros [x t] NX. unfold f, model_computeAlphas, model_prob. cbn [fst snd] in *. destruct (rev x) eqn:E; [|cbn [bind]; eexists; reflexivity].
    exfalso. apply NX. rewrite <- (rev_involutive x), E. reflexivity. }
  assert (Bad : forall st, (2 <= length (fst st))%nat -> f st = Ok (Some XN)).
  { intros [x t] LX. unfold f, model_computeAlphas, model_prob. cbn [fst snd] in *. destruct (rev x) as [|lst bl] eqn:E.
    { apply (f_equal (@length _)) in E. rewrite rev_length in E. cbn in E. lia. }
    assert (Lb : bl <> []). { apply (f_equal (@length _)) in E. rewrite rev_length in E. intros ->. cbn in E. lia. }
    assert (F : fold_left (fun prev o => fstep n prev (fun ss s => ct_tau (x_ctmc m) ss s o)) (rev bl) (ct_ini (x_ctmc m)) = repeat XN n).
    { assert (G : forall l a, fold_left (fun prev o => fstep n prev (fun ss s => ct_tau (x_ctmc m) ss s o)) l a = fold_left (fstep n) (map (fun o ss s => ct_tau (x_ctmc m) ss s o) l) a).
      { induction l as [|o l IH]; intros a; [reflexivity|]. cbn [map fold_left]. apply IH. }
      rewrite G. apply (nan_fold n s0); [exact H0| |cbn [x_ctmc ct_ini]; rewrite xvec_length; apply W|].
      - apply Forall_forall. intros w I. apply in_map_iff in I. destruct I as [o [<- _]]. intros ss Hs. apply TN. exact Hs.
      - destruct bl as [|o bl]; [congruence|]. cbn. destruct (rev bl); discriminate. }
    rewrite F. cbn [bind]. f_equal.
    assert (P : nsum (zipwith nmul (repeat XN n) (vbuild n (fun s => b s lst))) = XN).
    { apply xn_sum. destruct n as [|k]; [lia|]. left. reflexivity. }
    rewrite P. reflexivity. }
  assert (MM : forall l, (forall st, In st l -> fst st <> []) -> (exists st, In st l /\ (2 <= length (fst st))%nat) -> exists r, mmap f l = Ok r /\ In (Some XN) r).
  { induction l as [|st l IH]; intros Hl [st' [I Hs]]; [destruct I|]. cbn [mmap]. destruct (Ok1 st (Hl st (or_introl eq_refl))) as [r0 E0]. rewrite E0. cbn [bind].
    assert (T : exists r, mmap f l = Ok r).
    { clear - Hl Ok1. assert (Hl' : forall st, In st l -> fst st <> []) by (intros; apply Hl; right; assumption). clear Hl. induction l as [|x l IH]; [exists []; reflexivity|]. cbn [mmap].
      destruct (Ok1 x (Hl' x (or_introl eq_refl))) as [r0 E0]. rewrite E0. cbn [bind]. destruct IH as [r E]; [intros; apply Hl'; right; assumption|]. rewrite E. eexists. reflexivity. }
    destruct I as [<-|I].
    - destruct T as [r E]. rewrite E. cbn [bind]. eexists. split; [reflexivity|]. left. rewrite (Bad st Hs) in E0. congruence.
    - destruct IH as [r [E Ir]]; [intros; apply Hl; right; assumption|exists st'; split; assumption|]. rewrite E. cbn [bind]. eexists. split; [reflexivity|]. right. exact Ir. }
  assert (Q : exists t, In (tr, t) (combine (seqs s) (times s))).
  { revert L Itr. clear. generalize (seqs s), (times s). induction l as [|x l IH]; intros [|t ts] L I; try discriminate; [destruct I|]. destruct I as [->|I]; [exists t; left; reflexivity|].
    destruct (IH ts ltac:(cbn in L; lia) I) as [t' It]. exists t'. right. exact It. }
  destruct Q as [t0 It0]. destruct (MM (combine (seqs s) (times s))) as [r [E Ir]].
  { intros [x t] I E0. cbn [fst] in E0. subst x. apply in_combine_l in I. exact (NE I). }
  { exists (tr, t0). split; [exact It0|exact Htr]. }
  change (mmap (fun st => model_computeAlphas n (ct_tau (x_ctmc m)) b (ct_ini (x_ctmc m)) (fst st) (snd st)) (combine (seqs s) (times s))) with (mmap f (combine (seqs s) (times s))).
  rewrite E. cbn [bind].
  assert (N : nsum (not_false r) = XN). { apply xn_sum. unfold not_false. apply in_flat_map. exists (Some XN). split; [exact Ir|]. left. reflexivity. }
  rewrite N. reflexivity.
Qed.
Print Assumptions C152_ctmc_absorbing_score_refuted.

(** Non-vacuity: a CTMC which stops in its second state.  Its only behaviour is
    seeing init and then a: in exact arithmetic the score of this trace is 0. *)
Definition dead : ctmc R := mkCTMC [[0; 2]; [0; 0]] ["init"; "a"]%string [1; 0] "dead".
Definition dead_set : tset (list string) := mkset [["init"; "a"]]%string [3]%Z (Some 0%Z).
Lemma dead_wf : wf_ctmc dead.
Proof. unfold wf_ctmc, square, ct_n. cbn. repeat split; auto; [intros r [<-|[<-|[]]]; reflexivity|]. intros v [<-|[<-|[]]]; lra. Qed.
Example C152_instance_absorbing : ct_logLikelihood (x_ctmc dead) dead_set = Ok XN /\ avg_ll (ct_trace_prob dead) (weighted dead_set) = 0 /\
  bw_loop (round_CTMC_untimed 1 [] (weighted dead_set)) (XF (1 / 100)) 7 None 0 (x_ctmc dead) =
  Ok (mkCTMC [[XN; XN]; [XN; XN]] ["init"; "a"]%string [XF 1; XF 0] "dead", 7%nat, Some XN, false).
Proof.
  assert (Z0 : forall s', (s' < ct_n dead)%nat -> rate dead 1 s' = 0) by (intros [|[|s']] H; cbn in H; try lia; reflexivity).
  split; [|split].
  - apply (C152_ctmc_absorbing_score_refuted dead dead_set 1 ["init"; "a"]%string dead_wf); cbn; auto. intros [H|[]]; discriminate.
  - unfold avg_ll, set_ll, sumL, weighted. cbn [combine seqs times dead_set map fold_right fst snd].
    assert (P : ct_trace_prob dead ["init"; "a"]%string = 1).
    { unfold ct_trace_prob, trace_prob, paths. cbn [length repeat map Nat.sub]. unfold sumL. cbn. unfold jump, exit_rate, is_label. cbn. unfold matR, vecR. cbn. lra. }
    rewrite P, ln_1. destruct (Rlt_dec 0 1); [|lra]. cbn. lra.
  - rewrite (C152_ctmc_untimed_absorbing_refuted dead [] 1 7 (weighted dead_set) (1 / 100) 1 dead_wf); cbn; auto; try lia; [discriminate|].
    intros tr t [[= <- <-]|[]]. discriminate.
Qed.
(** A CTMC whose states can be left. *)
Definition alive : ctmc R := mkCTMC [[0; 2]; [1; 3]] ["init"; "a"]%string [1; 0] "alive".
Example C152_instance : wf_ctmc alive /\ nonneg_mat (ct_mat alive) /\ (forall s, (s < ct_n alive)%nat -> 0 < exit_rate alive s) /\ no_fixed [] /\ pos_times (weighted dead_set) /\
  zsum (times dead_set) <> 0%Z /\ ct_logLikelihood (x_ctmc alive) dead_set = Ok (XF 0).
Proof.
  assert (W : wf_ctmc alive) by (unfold wf_ctmc, square, ct_n; cbn; repeat split; auto; [intros r [<-|[<-|[]]]; reflexivity|]; intros v [<-|[<-|[]]]; lra).
  assert (NN : nonneg_mat (ct_mat alive)) by (intros r [<-|[<-|[]]]; intros v [<-|[<-|[]]]; lra).
  assert (LV : forall s, (s < ct_n alive)%nat -> 0 < exit_rate alive s) by (intros [|[|s]] H; cbn in H; try lia; unfold exit_rate; cbn; lra).
  assert (PT : pos_times (weighted dead_set)) by (intros st [<-|[]]; cbn; lia).
  split; [exact W|]. split; [exact NN|]. split; [exact LV|]. split; [intros [|s] [|s']; reflexivity|]. split; [exact PT|]. split; [cbn; lia|].
  rewrite C152_ctmc_score_finite; [|cbn; lia|intros st H; apply Rgt_not_eq, LV, H].
  rewrite C27_ctmc_logLikelihood; [|exact W|repeat split; [intros t [<-|[]]; lia|intros [H|[]]; discriminate]]. cbn [xscore]. f_equal. f_equal.
  unfold avg_ll, set_ll, sumL, weighted. cbn [combine seqs times dead_set map fold_right fst snd].
  assert (P : ct_trace_prob alive ["init"; "a"]%string = 1).
  { unfold ct_trace_prob, trace_prob, paths. cbn [length repeat map Nat.sub]. unfold sumL. cbn. unfold jump, exit_rate, is_label. cbn. unfold matR, vecR. cbn. lra. }
  rewrite P, ln_1. destruct (Rlt_dec 0 1); [|lra]. cbn. lra.
Qed.
(** The Gaussian model of PBWGO.v. *)
Example C152_instance_gaussian : nonneg_mat (go_mat PBWGO.ex_go) /\ nonneg (go_ini PBWGO.ex_go) /\ length (go_ini PBWGO.ex_go) = go_n PBWGO.ex_go /\
  (forall s k, 0 <= stddev PBWGO.ex_go s k) /\ pos_times (weighted PBWGO.ex_gset).
Proof.
  split; [intros r [<-|[<-|[]]]; intros v [<-|[<-|[]]]; lra|]. split; [intros v [<-|[<-|[]]]; lra|]. split; [reflexivity|]. split.
  - intros [|[|s]] [|[|k]]; unfold stddev; cbn; try lra; destruct s; cbn; try lra; destruct k; cbn; lra.
  - intros st [<-|[<-|[]]]; cbn; lia.
Qed.
