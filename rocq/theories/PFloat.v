(** Theorem C136: traces of any length, in exact arithmetic and in double
    precision. *)
From Coq Require Import String ZArith Bool Reals List Lra Lia PrimFloat.
From Verif Require Import Num Py SNum LSum SPath LPath MTools MSet MModels SBW SLik MLik MBW MCtor SCtor PCtor MRun LBW LLik LEM LEMGen LFB LBWHMM PBWHMM PBWMC MInit PInit2 SRun PRun MFloat.
Import ListNotations.

(** A fair coin as an HMM with one state, and as a Markov chain. *)
Definition coin {K} `{Num K} : hmm K := mkHMM [[n1]] [[n1 / nofZ 2; n1 / nofZ 2]%num] ["H"; "T"]%string [n1] "coin".
Definition coin_mc {K} `{Num K} : mc K :=
  mkMC (repeat [n1 / nofZ 2; n1 / nofZ 2; n0]%num 3) ["H"; "T"; "init"]%string [n0; n0; n1] "coin".
Definition tosses (w : list string) : Prop := forall o, In o w -> o = "H"%string \/ o = "T"%string.

(** Reading any word gives the same value as reading heads only, as long as the
    two symbols have the same effect on the values met. *)
Section Walk.
  Context {A : Type} (step : A -> string -> A).
  Fixpoint scan (o : string) (n : nat) (a : A) : list A := match n with O => [] | S n => step a o :: scan o n (step a "H"%string) end.
  Fixpoint heads (n : nat) (a : A) : A := match n with O => a | S n => step (heads n a) "H"%string end.
  Lemma heads_step n a : heads n (step a "H"%string) = step (heads n a) "H"%string.
  Proof. induction n as [|n IH]; [reflexivity|]. cbn [heads]. rewrite IH. reflexivity. Qed.
  Lemma scan_eq N a : scan "T" N a = scan "H" N a -> forall k, (k < N)%nat -> step (heads k a) "T"%string = step (heads k a) "H"%string.
  Proof.
    revert a. induction N as [|N IH]; intros a E k Hk; [lia|]. cbn [scan] in E. injection E as E1 E2. destruct k as [|k]; [exact E1|].
    change (heads (S k) a) with (step (heads k a) "H"%string). rewrite <- heads_step. apply IH; [exact E2|lia].
  Qed.
  Lemma fixed_from N a z : heads N a = z -> step z "H"%string = z -> forall k, (N <= k)%nat -> heads k a = z.
  Proof. intros E F k Hk. induction Hk as [|k Hk IH]; [exact E|]. cbn [heads]. rewrite IH. exact F. Qed.
  Lemma walk N a z : scan "T" N a = scan "H" N a -> heads N a = z -> step z "H"%string = z -> step z "T"%string = z ->
    forall w, tosses w -> fold_left step w a = heads (length w) a.
  Proof.
    intros E Z ZH ZT w. assert (G : forall k, tosses w -> fold_left step w (heads k a) = heads (length w + k) a).
    { induction w as [|o w IH]; intros k T; [reflexivity|]. cbn [fold_left length Nat.add].
      assert (Q : step (heads k a) o = heads (S k) a).
      { change (heads (S k) a) with (step (heads k a) "H"%string). destruct (T o (or_introl eq_refl)) as [-> | ->]; [reflexivity|].
        destruct (Nat.lt_ge_cases k N) as [L|L]; [apply (scan_eq N); assumption|]. rewrite (fixed_from N a z Z ZH k L). congruence. }
      rewrite Q, IH by (intros x I; apply T; right; exact I). f_equal. lia. }
    intros T. rewrite <- (Nat.add_0_r (length w)). apply (G 0%nat T).
  Qed.
End Walk.

(** The last forward row, in any arithmetic. *)
Lemma last_alphas {K} {NK : Num K} n (a : list K) ws : last (bw_alphas n a ws) [] = fold_left (fstep n) ws a.
Proof.
  revert a. induction ws as [|w ws IH]; intros a; [reflexivity|]. cbn [bw_alphas fold_left]. rewrite <- IH.
  destruct ws; reflexivity.
Qed.
Lemma fold_map {A B C} (f : A -> B -> A) (g : C -> B) l a : fold_left f (map g l) a = fold_left (fun x c => f x (g c)) l a.
Proof. revert a. induction l as [|c l IH]; intros a; [reflexivity|]. cbn. apply IH. Qed.

(** ** Double precision *)
Definition hstep (a : list float) (o : string) : list float := fstep 1 a (fun ss s => hmm_tau coin ss s o).
Lemma hwalk w : tosses w -> (1075 <= length w)%nat -> fold_left hstep w [PrimFloat.one] = [PrimFloat.zero].
Proof.
  intros T L. rewrite (walk hstep 1075 [PrimFloat.one] [PrimFloat.zero]); [|vm_compute; reflexivity|vm_compute; reflexivity|vm_compute; reflexivity|vm_compute; reflexivity|exact T].
  apply (fixed_from hstep 1075); [vm_compute; reflexivity|vm_compute; reflexivity|exact L].
Qed.
Lemma hfold w : fold_left (fun prev o => fstep 1 prev (fun ss s => hmm_tau (@coin float FNum) ss s o)) w [PrimFloat.one] = fold_left hstep w [PrimFloat.one].
Proof. reflexivity. Qed.
Lemma no_result_hmm w t : tosses w -> (1075 <= length w)%nat -> processWork_HMM (K:=float) coin w t = None.
Proof.
  intros T L. unfold processWork_HMM, proba_of, hmm_ws. rewrite last_alphas, fold_map.
  match goal with |- context [fold_left ?f w ?a] => replace (fold_left f w a) with [PrimFloat.zero] by (symmetry; exact (hwalk w T L)) end. reflexivity.
Qed.
Lemma model_prob_snoc {K O} {NK : Num K} n tau b ini (w : list O) (o : O) :
  model_prob n tau b ini (w ++ [o]) = Ok (nsum (zipwith nmul (fold_left (fun prev o => fstep n prev (fun ss s => tau ss s o)) w ini) (vbuild n (fun s => b s o)))).
Proof. unfold model_prob. rewrite rev_app_distr. cbn [rev app]. rewrite rev_involutive. reflexivity. Qed.
Lemma snoc {A} (w : list A) n : (S n <= length w)%nat -> exists v o, w = v ++ [o] /\ (n <= length v)%nat.
Proof.
  intros L. destruct w as [|x w] using rev_ind; [cbn in L; lia|]. exists w, x. split; [reflexivity|]. rewrite app_length in L. cbn in L. lia.
Qed.
Definition hend (a : list float) (o : string) : float := nsum (zipwith nmul a (vbuild 1 (fun s => hmm_b coin s o))).
Lemma hprob w : tosses w -> (1075 <= length w)%nat -> model_prob 1 (hmm_tau (@coin float FNum)) (hmm_b coin) [PrimFloat.one] w = Ok PrimFloat.zero.
Proof.
  intros T L. destruct (snoc w 1074 L) as (v & o & -> & Lv). rewrite model_prob_snoc, hfold.
  assert (Tv : tosses v) by (intros x I; apply T, in_or_app; left; exact I).
  rewrite (walk hstep 1075 [PrimFloat.one] [PrimFloat.zero]); [|vm_compute; reflexivity|vm_compute; reflexivity|vm_compute; reflexivity|vm_compute; reflexivity|exact Tv].
  assert (E : forall k, (1074 <= k)%nat -> heads hstep k [PrimFloat.one] = heads hstep 1074 [PrimFloat.one] \/ heads hstep k [PrimFloat.one] = [PrimFloat.zero]).
  { intros k Hk. destruct (Nat.eq_dec k 1074) as [->|]; [left; reflexivity|right; apply (fixed_from hstep 1075); [vm_compute; reflexivity|vm_compute; reflexivity|lia]]. }
  destruct (T o ltac:(apply in_or_app; right; left; reflexivity)) as [-> | ->]; destruct (E (length v) Lv) as [-> | ->]; vm_compute; reflexivity.
Qed.

(** ** Exact arithmetic *)
Local Open Scope R_scope.
Lemma coin_step (x : R) o : o = "H"%string \/ o = "T"%string -> fstep 1 [x] (fun ss s => hmm_tau coin ss s o) = [x * / 2].
Proof. intros [-> | ->]; unfold fstep, vbuild, ndot, hmm_tau, hmm_a, hmm_b, hmm_n, coin; cbn; nR; f_equal; unfold mget, vget; cbn; nR; lra. Qed.
Lemma coin_fold w x : tosses w -> fold_left (fun prev o => fstep 1 prev (fun ss s => hmm_tau coin ss s o)) w [x] = [x * (/ 2) ^ length w].
Proof.
  revert x. induction w as [|o w IH]; intros x T; [cbn; f_equal; lra|]. cbn [fold_left]. rewrite coin_step by (apply T; left; reflexivity).
  rewrite IH by (intros y I; apply T; right; exact I). f_equal. cbn [length pow]. lra.
Qed.
Lemma coin_prob w : tosses w -> w <> [] -> model_prob 1 (hmm_tau coin) (hmm_b coin) [1] w = Ok ((/ 2) ^ length w).
Proof.
  intros T NE. destruct (snoc w 0) as (v & o & -> & _); [destruct w; [congruence|cbn; lia]|]. rewrite model_prob_snoc, coin_fold by (intros x I; apply T, in_or_app; left; exact I).
  rewrite app_length. cbn [length]. rewrite Nat.add_1_r. cbn [pow]. f_equal.
  destruct (T o ltac:(apply in_or_app; right; left; reflexivity)) as [-> | ->]; unfold vbuild, hmm_b, hmm_n, coin; cbn; nR; unfold mget, vget; cbn; nR; lra.
Qed.

(** ** C136 *)
(** logLikelihood of a trace of n tosses: exactly - n ln 2 for every length, but
    0, as for an impossible trace, as soon as n reaches 1075 in double precision,
    whatever the implementation of log. *)
Theorem C136_coin_logLikelihood : forall (w : list string) (t : Z), tosses w -> w <> [] -> (0 < t)%Z ->
  hmm_logLikelihood (K:=R) coin (mkset [w] [t] (Some 0%Z)) = Ok (- (INR (length w) * ln 2)).
Proof.
  intros w t T NE Ht. unfold hmm_logLikelihood, model_multiproc, model_computeAlphas. cbn [seqs times combine mmap fst snd].
  change (hmm_n coin) with 1%nat. change (hmm_ini coin) with [1]. rewrite coin_prob by assumption. cbn [bind]. unfold log_times. nR.
  assert (P : 0 < (/ 2) ^ length w) by (apply pow_lt; lra).
  assert (L : ln ((/ 2) ^ length w) = - (INR (length w) * ln 2)).
  { clear. induction (length w) as [|n IH]; [cbn [pow]; rewrite ln_1; cbn [INR]; lra|]. cbn [pow]. rewrite ln_mult by (try apply pow_lt; lra). rewrite IH, ln_Rinv by lra.
    rewrite S_INR. lra. }
  assert (L2 : 0 < ln 2) by (rewrite <- ln_1; apply ln_increasing; lra).
  assert (Ln : 0 < INR (length w)) by (apply lt_0_INR; destruct w; [congruence|cbn; lia]).
  assert (Tz : 0 < IZR t) by (apply IZR_lt; exact Ht).
  assert (LT : 0 < INR (length w) * ln 2 * IZR t) by (repeat apply Rmult_lt_0_compat; assumption).
  assert (E1 : Rleb ((/ 2) ^ length w) 0 = false) by (unfold Rleb; destruct (Rle_dec _ 0); [lra|reflexivity]).
  assert (E2 : Reqb (- (INR (length w) * ln 2) * IZR t) 0 = false) by (unfold Reqb; destruct (Req_EM_T _ 0); [lra|reflexivity]).
  rewrite E1. cbn [bind not_false flat_map app]. nR. rewrite L. rewrite E2. cbn [app nsum fold_right]. nR. rewrite Rplus_0_r, E2. cbn [zsum]. rewrite Z.add_0_r.
  f_equal. field. lra.
Qed.
Print Assumptions C136_coin_logLikelihood.
Theorem C136_coin_logLikelihood_double_refuted : forall (TF : Trans float) (w : list string) (t : Z), tosses w -> (1075 <= length w)%nat ->
  hmm_logLikelihood (K:=float) coin (mkset [w] [t] (Some 0%Z)) = Ok PrimFloat.zero.
Proof.
  intros TF w t T L. unfold hmm_logLikelihood, model_multiproc, model_computeAlphas. cbn [seqs times combine mmap fst snd].
  change (hmm_n coin) with 1%nat. change (hmm_ini coin) with [PrimFloat.one]. rewrite hprob by assumption. reflexivity.
Qed.
Print Assumptions C136_coin_logLikelihood_double_refuted.

(** Learning from tosses works in exact arithmetic for every length. *)
Lemma coin_move w : tosses w -> hmm_trace_prob_move coin w = (/ 2) ^ length w.
Proof.
  intros T. unfold hmm_trace_prob_move. rewrite trace_prob_move_tot. unfold tot. change (hmm_n coin) with 1%nat. cbn [Sum]. change (vget (hmm_ini coin) 0) with 1.
  assert (G : Bk 1 (hW coin w) (fun _ => 1) 0 = (/ 2) ^ length w).
  { induction w as [|o w IH]; [reflexivity|]. cbn [hW ew map]. cbn [Bk Sum length pow]. rewrite <- IH by (intros x I; apply T; right; exact I).
    change (map (fun (o0 : string) (s s' : nat) => emit coin o0 s * matR (hmm_mat coin) s s') w) with (hW (@coin R RNum) w).
    assert (E : emit coin o 0 = / 2) by (destruct (T o (or_introl eq_refl)) as [-> | ->]; unfold emit; cbn; unfold matR; cbn; nR; lra).
    rewrite E. unfold matR. cbn. nR. lra. }
  transitivity (1 * Bk 1 (hW (@coin R RNum) w) (fun _ => 1) 0 + 0); [reflexivity|]. rewrite G. lra.
Qed.
Lemma coin_wf : wf_hmm (@coin R RNum).
Proof.
  unfold wf_hmm, square, hmm_n; cbn. repeat split; auto.
  - intros r [<-|[]]; reflexivity.
  - intros r [<-|[]]; reflexivity.
  - constructor; [intros [H|[]]; discriminate|]. constructor; [intros []|constructor].
  - intros x [<-|[]]. nR. lra.
Qed.
Lemma coin_sub : hmm_sub (@coin R RNum).
Proof.
  unfold hmm_sub, substochastic. repeat split.
  - intros r [<-|[]] x [<-|[]]. nR. lra.
  - intros r [<-|[]]. cbn. nR. lra.
  - intros r [<-|[]] x [<-|[<-|[]]]; nR; lra.
  - intros r [<-|[]]. cbn. nR. lra.
  - cbn. nR. lra.
Qed.
Theorem C136_coin_fit : forall (set : list (list string * Z)) (p : nat) (eps : R),
  set <> [] -> (forall w t, In (w, t) set -> tosses w /\ (0 < t)%Z) -> 0 < eps ->
  exists m' c ll N, forall max_it, (N <= max_it)%nat -> bw_loop (round_HMM p set) eps max_it None 0 coin = Ok (m', c, Some ll, true).
Proof.
  intros set p eps NE G He.
  assert (P : forall w t, In (w, t) set -> 0 < hmm_trace_prob_move coin w) by (intros w t I; rewrite coin_move by (apply (G w t I)); apply pow_lt; lra).
  destruct (archimed_nat (- set_ll (hmm_trace_prob_move coin) set / eps)) as [N HN].
  apply (Rmult_lt_compat_r eps) in HN; [|exact He]. unfold Rdiv in HN. rewrite Rmult_assoc, Rinv_l, Rmult_1_r in HN by lra.
  destruct (C42_hmm_terminates coin p set eps N) as (m' & c & ll & _ & H).
  - apply coin_wf.
  - apply coin_sub.
  - intros [w t] I. apply (G w t I).
  - exact He.
  - destruct set as [|[w t] set]; [congruence|]. exists w, t. split; [left; reflexivity|]. apply (P w t). left. reflexivity.
  - right. exact P.
  - exact HN.
  - exists m', c, ll, (S N). exact H.
Qed.
Print Assumptions C136_coin_fit.

(** With one process a single long trace makes fit fail at its first iteration,
    whatever the other traces are; with several processes the long traces are
    left out of the learning without a word, and fit fails when nothing else is
    there. *)
Lemma unwrap_none {A} (l : list (option A)) : In None l -> unwrap l = Err TypeError.
Proof.
  induction l as [|[a|] l IH]; [intros []| |reflexivity]. intros [H|H]; [discriminate|].
  unfold unwrap in *. cbn [mmap bind]. rewrite (IH H). reflexivity.
Qed.
Theorem C136_coin_fit_double_refuted : forall (TF : Trans float) (set : list (list string * Z)) (w : list string) (t : Z) (p : nat) (eps : float) (max_it : nat),
  In (w, t) set -> tosses w -> (1075 <= length w)%nat -> (p <= 1)%nat ->
  bw_loop (round_HMM (K:=float) p set) eps (S max_it) None 0 coin = Err TypeError.
Proof.
  intros TF set w t p eps mx I T L Hp. cbn [bw_loop]. unfold round_HMM, runProcesses, update_HMM.
  destruct (Nat.ltb_spec 1 p) as [H|_]; [lia|]. rewrite unwrap_none; [reflexivity|].
  apply in_map_iff. exists (w, t). split; [|exact I]. apply (no_result_hmm w t T L).
Qed.
Print Assumptions C136_coin_fit_double_refuted.
Theorem C136_coin_fit_ignored_double_refuted : forall (TF : Trans float) (S1 S2 : list (list string * Z)) (w : list string) (t : Z) (p : nat),
  tosses w -> (1075 <= length w)%nat -> (1 < p)%nat ->
  round_HMM (K:=float) p (S1 ++ (w, t) :: S2) coin = round_HMM p (S1 ++ S2) coin /\
  round_HMM (K:=float) p [(w, t)] coin = Err TypeError.
Proof.
  intros TF S1 S2 w t p T L Hp. unfold round_HMM, runProcesses.
  destruct (Nat.ltb_spec 1 p) as [_|H]; [|lia]. rewrite !map_app. cbn [map fst snd]. rewrite (no_result_hmm w t T L). rewrite !filter_app. split; reflexivity.
Qed.
Print Assumptions C136_coin_fit_ignored_double_refuted.

(** The same coin as a Markov chain. *)
Definition mstep (a : list float) (o : string) : list float := fstep 3 a (fun ss s => mc_tau coin_mc ss s o).
Definition half : float := PrimFloat.div PrimFloat.one (PrimFloat.add PrimFloat.one PrimFloat.one).
Lemma mwalk w : tosses w -> (1075 <= length w)%nat -> fold_left mstep w [half; half; PrimFloat.zero] = [PrimFloat.zero; PrimFloat.zero; PrimFloat.zero].
Proof.
  intros T L. rewrite (walk mstep 1075 [half; half; PrimFloat.zero] [PrimFloat.zero; PrimFloat.zero; PrimFloat.zero]);
    [|vm_compute; reflexivity|vm_compute; reflexivity|vm_compute; reflexivity|vm_compute; reflexivity|exact T].
  apply (fixed_from mstep 1075); [vm_compute; reflexivity|vm_compute; reflexivity|exact L].
Qed.
Lemma no_result_mc w t : tosses w -> (1075 <= length w)%nat -> processWork_MC (K:=float) coin_mc ("init"%string :: w) t = None.
Proof.
  intros T L. unfold processWork_MC, proba_of, mc_ws. rewrite last_alphas, fold_map. cbn [fold_left].
  match goal with |- context [fold_left ?f w ?a] => replace (fold_left f w a) with [PrimFloat.zero; PrimFloat.zero; PrimFloat.zero]
    by (symmetry; replace a with [half; half; PrimFloat.zero] by (vm_compute; reflexivity); exact (mwalk w T L)) end. vm_compute. reflexivity.
Qed.
Theorem C136_mc_fit_double_refuted : forall (TF : Trans float) (set : list (list string * Z)) (w : list string) (t : Z) (p : nat) (eps : float) (max_it : nat),
  In ("init"%string :: w, t) set -> tosses w -> (1075 <= length w)%nat -> (p <= 1)%nat ->
  bw_loop (round_MC (K:=float) p set) eps (S max_it) None 0 coin_mc = Err TypeError.
Proof.
  intros TF set w t p eps mx I T L Hp. cbn [bw_loop]. unfold round_MC, runProcesses, update_MC.
  destruct (Nat.ltb_spec 1 p) as [H|_]; [lia|]. rewrite unwrap_none; [reflexivity|].
  apply in_map_iff. exists ("init"%string :: w, t). split; [|exact I]. apply (no_result_mc w t T L).
Qed.
Print Assumptions C136_mc_fit_double_refuted.

(** ** Simulation *)
(** A die with seven faces, each with the double closest to 1/7: the constructor
    accepts it, yet the cumulative sum ends 2^-52 below 1, and the largest value
    random() may return is above it. *)
Definition die_rows {K} `{Num K} : list (list K) := repeat (repeat (n1 / nofZ 7)%num 7 ++ [n0]) 8.
Definition die_labels : list string := ["1"; "2"; "3"; "4"; "5"; "6"; "7"; "init"]%string.
Definition die {K} `{Num K} : mc K := mkMC die_rows die_labels (repeat n0 7 ++ [n1]) "die".
Theorem C136_die_run : exists m, MC_new (K:=R) die_rows die_labels "die" = Ok m /\
  forall (steps : nat) (draws : nat -> R), (forall k, unit_draw (draws k)) ->
  exists tr, mc_run m (Z.of_nat steps) (-1) draws = Ok tr /\ length tr = S steps.
Proof.
  assert (RD : forall r : list R, In r die_rows -> is_dist r /\ length r = 8%nat).
  { intros r I. apply repeat_spec in I. subst r. split; [|reflexivity]. split; [|cbn; nR; field].
    intros x I. cbn in I. repeat destruct I as [<-|I]; try destruct I; nR; lra. }
  destruct (C16_MC_constructor die_rows die_labels "die") as (A & B & _).
  destruct (proj2 A) as [m E].
  { split; [cbn; tauto|]. split; [reflexivity|]. intros r I. apply row_ok_one, (RD r I). }
  exists m. split; [exact E|]. destruct (B m E) as (M1 & M2 & _ & Li & Di & _).
  intros steps draws U. destruct (C22_mc_run m steps draws) as (s & x & L & _ & _ & Er); [|rewrite M1; intros r I; apply (RD r I)|exact Di|exact U|].
  - unfold wf_mc, mc_n, square. rewrite M1, M2. repeat split; try reflexivity; try exact Li; [|apply Di]. intros r I. apply (RD r I).
  - eexists. split; [exact Er|]. rewrite map_length. cbn [length]. rewrite L. reflexivity.
Qed.
Print Assumptions C136_die_run.
(** The largest value random() may return: (2^53 - 1) / 2^53. *)
Definition largest_draw : float := PrimFloat.div (float_of_Z (2 ^ 53 - 1)) (float_of_Z (2 ^ 53)).
Theorem C136_die_run_double_refuted : MC_new (K:=float) die_rows die_labels "die" = Ok die /\
  PrimFloat.ltb largest_draw PrimFloat.one = true /\
  forall (steps : Z) (draws : nat -> float), (1 <= steps)%Z -> draws 0%nat = PrimFloat.zero -> draws 1%nat = largest_draw ->
  mc_run (K:=float) die steps (-1) draws = Err IndexError.
Proof.
  split; [vm_compute; reflexivity|]. split; [vm_compute; reflexivity|]. intros steps draws L D0 D1. unfold mc_run. cbn [Z.eqb].
  rewrite D0. replace (resolveRandom (mc_ini die) PrimFloat.zero) with (Ok 7%nat) by (vm_compute; reflexivity). change (-1 =? -1)%Z with true. cbv iota. cbn [bind].
  destruct (Z.to_nat steps) as [|k] eqn:E; [lia|]. cbn [mc_run_from]. rewrite D1.
  replace (mc_next die (Z.of_nat 7) largest_draw) with (@Err (Z * string) IndexError) by (vm_compute; reflexivity). reflexivity.
Qed.
Print Assumptions C136_die_run_double_refuted.

(** The hypotheses are met: ten thousand heads. *)
Lemma heads_tosses n : tosses (repeat "H"%string n).
Proof. intros o I. apply repeat_spec in I. left. exact I. Qed.
Example C136_instance : tosses (repeat "H"%string 2000) /\ (1075 <= length (repeat "H"%string 2000))%nat /\ (exists d : nat -> float, d 0%nat = PrimFloat.zero /\ d 1%nat = largest_draw) /\
  (forall TF : Trans float, hmm_logLikelihood (K:=float) coin (mkset [repeat "H"%string 2000] [1%Z] (Some 0%Z)) = Ok PrimFloat.zero).
Proof.
  split; [apply heads_tosses|]. split; [rewrite repeat_length; apply Nat.leb_le; vm_compute; reflexivity|].
  split; [exists (fun k => match k with O => PrimFloat.zero | _ => largest_draw end); split; reflexivity|].
  intros TF. apply C136_coin_logLikelihood_double_refuted; [apply heads_tosses|rewrite repeat_length; apply Nat.leb_le; vm_compute; reflexivity].
Qed.
