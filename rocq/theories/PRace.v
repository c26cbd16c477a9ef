(** Theorems C151: the law of the simulation of CTMCs. *)
From Coq Require Import String ZArith Bool Reals Lra Lia List.
From Verif Require Import Num Py SNum LSum MTools MSet LTools SPath SBW SLik SRun MModels MCtor MLik MRun LLik LRun LFB LPath LLik2 PRun PRun3 PLkl SRace.
Import ListNotations.
Local Open Scope R_scope.

(** [next] returns state i after t iff the sample of i is t and wins the race,
    for times below 1024. *)
Theorem C151_ctmc_next_race : forall (m : ctmc R) (s : nat) (sample : nat -> R) o i t, wf_ctmc m -> (s < ct_n m)%nat -> t < 1024 ->
  (ct_next m s sample = Ok (o, i, t) <-> o = nth s (ct_lab m) EmptyString /\ wins (nth s (ct_mat m) []) sample i t).
Proof.
  intros m s sample o i t ((Lm & Lr) & Ll & Li & Ni) Ls Lt. assert (LR : length (nth s (ct_mat m) []) = ct_n m) by (apply Lr, nth_In; exact Ls).
  destruct (ct_next_spec m s sample Ls ltac:(lia)) as (s' & t' & E & Ls' & T & MIN & FST). { intros X. rewrite X in LR. cbn in LR. lia. }
  rewrite E. unfold matR in *. split.
  - intros [= <- -> ->]. split; [reflexivity|]. destruct (Rle_dec (nth i (nth s (ct_mat m) []) 0) 0) as [Z|Z]; [lra|]. split; [exact Ls'|]. split; [lra|]. split; [auto|].
    intros j Lj Pj. split; [specialize (MIN j Lj)|intros Lji; specialize (FST j Lji)]; destruct (Rle_dec (nth j (nth s (ct_mat m) []) 0) 0); lra.
  - intros [-> (Li' & Pi & Ei & W)]. pose proof (MIN i Li') as Mi. destruct (Rle_dec (nth i (nth s (ct_mat m) []) 0) 0) as [Z|_]; [lra|].
    destruct (Rle_dec (nth s' (nth s (ct_mat m) []) 0) 0) as [Z|Z]; [lra|]. destruct (W s' Ls' ltac:(lra)) as [W1 W2].
    assert (t' = t) by lra. assert (s' = i) as ->; [|congruence].
    destruct (Nat.lt_trichotomy s' i) as [L|[L|L]]; [specialize (W2 L); lra|exact L|]. specialize (FST i L). destruct (Rle_dec (nth i (nth s (ct_mat m) []) 0) 0); lra.
Qed.
Print Assumptions C151_ctmc_next_race.

(** ** Densities *)
Lemma d_lin c e x : derivable_pt_lim (fun t => c * exp (- (e * t))) x (- (c * (e * exp (- (e * x))))).
Proof.
  pose proof (derivable_pt_lim_scal (fun t => exp (- e * t)) c x _ (d_exp e x)) as H.
  replace (- (c * (e * exp (- (e * x))))) with (c * (- e * exp (- e * x))) by (replace (- e * x) with (- (e * x)) by ring; ring).
  eapply derivable_pt_lim_ext; [|exact H]. intros t. unfold mult_real_fct. f_equal. f_equal. ring.
Qed.
Lemma integral_exp r e a b : e <> 0 -> a <= b -> integral (fun t => r * exp (- (e * t))) a b (r / e * (exp (- (e * a)) - exp (- (e * b)))).
Proof.
  intros E L. replace (r / e * (exp (- (e * a)) - exp (- (e * b)))) with ((- (r / e)) * exp (- (e * b)) - (- (r / e)) * exp (- (e * a))) by ring.
  apply (ftc (fun t => (- (r / e)) * exp (- (e * t)))); [|apply (cont_of_deriv _ _ (d_lin r e))|exact L].
  intros x. replace (r * exp (- (e * x))) with (- ((- (r / e)) * (e * exp (- (e * x))))) by (field; exact E). apply d_lin.
Qed.

Lemma prod_exp (f : nat -> R) l t : fold_right Rmult 1 (map (fun j => exp (- (f j * t))) l) = exp (- (sumL l f * t)).
Proof.
  induction l as [|j l IH]; [unfold sumL; cbn; rewrite Rmult_0_l, Ropp_0, exp_0; reflexivity|].
  cbn [map fold_right]. rewrite IH, <- exp_plus, sumL_cons. f_equal. ring.
Qed.
Lemma Sum_delta n i c : Sum n (fun j => if (j =? i)%nat then c else 0) = if (i <? n)%nat then c else 0.
Proof.
  induction n as [|n IH]; [reflexivity|]. rewrite Sum_S, IH. destruct (Nat.eqb_spec n i), (Nat.ltb_spec i n), (Nat.ltb_spec i (S n)); try lia; lra.
Qed.
Lemma others_exp row i t : (i < length row)%nat -> others_survive row i t = exp (- ((rsum row - nth i row 0) * t)).
Proof.
  intros L. unfold others_survive. rewrite (map_ext _ (fun j => exp (- ((if (j =? i)%nat then 0 else nth j row 0) * t)))).
  - rewrite (prod_exp (fun j => if (j =? i)%nat then 0 else nth j row 0)). f_equal. f_equal. f_equal.
    rewrite rsum_nth. change (Sum (length row) ?f) with (sumL (seq 0 (length row)) f).
    rewrite (sumL_ext _ (fun j => if (j =? i)%nat then 0 else nth j row 0) (fun j => nth j row 0 - (if (j =? i)%nat then nth i row 0 else 0))).
    + rewrite sumL_minus. f_equal. change (sumL (seq 0 (length row)) ?f) with (Sum (length row) f).
      rewrite Sum_delta. destruct (Nat.ltb_spec i (length row)); [reflexivity|lia].
    + intros j _. destruct (Nat.eqb_spec j i) as [->|]; lra.
  - intros j. unfold exp_survival. destruct (j =? i)%nat; [rewrite Rmult_0_l, Ropp_0, exp_0|]; reflexivity.
Qed.
Lemma race_jump (m : ctmc R) s i t : wf_ctmc m -> (s < ct_n m)%nat -> (i < ct_n m)%nat -> race_density (nth s (ct_mat m) []) i t = jump_density m t s i.
Proof.
  intros ((Lm & Lr) & _) Ls Li. unfold race_density. rewrite others_exp by (rewrite Lr; [exact Li|apply nth_In; exact Ls]).
  unfold exp_density, jump_density, exit_rate, matR. rewrite Rmult_assoc, <- exp_plus. f_equal. f_equal. ring.
Qed.

(** The sample of numpy.random.exponential is after [t] with the probability
    [exp_survival]: the mass of its density between a and b. *)
Theorem C151_sample_law : forall r a b, 0 < r -> 0 <= a <= b ->
  integral (exp_density r) a b (exp_survival r a - exp_survival r b) /\ exp_survival r 0 = 1 /\ integral_to_inf (exp_density r) 1.
Proof.
  intros r a b P L. assert (I : forall a b, a <= b -> integral (exp_density r) a b (exp_survival r a - exp_survival r b)).
  { clear a b L. intros a b L. pose proof (integral_exp r r a b ltac:(lra) L) as I. replace (r / r) with 1 in I by (field; lra). rewrite Rmult_1_l in I. exact I. }
  split; [apply I; lra|]. split; [unfold exp_survival; rewrite Rmult_0_r, Ropp_0; apply exp_0|].
  intros eps Pe. assert (Q : 0 < / (r * eps)) by (apply Rinv_0_lt_compat, Rmult_lt_0_compat; assumption). exists (/ (r * eps)). split; [lra|]. intros b' L'.
  exists (exp_survival r 0 - exp_survival r b'). split; [apply I; lra|]. unfold exp_survival. rewrite Rmult_0_r, Ropp_0, exp_0.
  replace (1 - exp (- (r * b')) - 1) with (- exp (- (r * b'))) by ring. rewrite Rabs_Ropp, Rabs_right by (left; apply exp_pos).
  pose proof (exp_tail r b' P ltac:(lra)) as T. replace (- r * b') with (- (r * b')) in T by ring. apply Rlt_le_trans with (1 := T).
  replace eps with (/ (r * / (r * eps))) by (field; lra). apply Rinv_le_contravar; [apply Rmult_lt_0_compat; assumption|]. apply Rmult_le_compat_l; lra.
Qed.
Print Assumptions C151_sample_law.

(** One step: the race between the samples has the density the model gives to a
    jump; the probability of jumping to i between the times a and b, and at any time. *)
Theorem C151_ctmc_step_law : forall (m : ctmc R) (s i : nat), wf_ctmc m -> (s < ct_n m)%nat -> (i < ct_n m)%nat -> 0 < exit_rate m s ->
  (forall t, race_density (nth s (ct_mat m) []) i t = jump_density m t s i) /\
  (forall a b, 0 <= a <= b -> integral (race_density (nth s (ct_mat m) []) i) a b
     (jump m s i * (exp (- (exit_rate m s * a)) - exp (- (exit_rate m s * b))))) /\
  integral_to_inf (race_density (nth s (ct_mat m) []) i) (jump m s i).
Proof.
  intros m s i W Ls Li P. assert (J : forall t, race_density (nth s (ct_mat m) []) i t = jump_density m t s i) by (intros t; apply race_jump; assumption).
  assert (I : forall a b, a <= b -> integral (race_density (nth s (ct_mat m) []) i) a b (jump m s i * (exp (- (exit_rate m s * a)) - exp (- (exit_rate m s * b))))).
  { intros a b L. apply (integral_ext (fun t => matR (ct_mat m) s i * exp (- (exit_rate m s * t)))); [exact L|intros x _; rewrite J; reflexivity|]. apply integral_exp; [lra|exact L]. }
  split; [exact J|]. split; [intros a b L; apply I; lra|].
  set (e := exit_rate m s) in *. set (q := jump m s i) in *. intros eps Pe. set (c := Rabs q + 1). assert (Pc : 0 < c) by (unfold c; pose proof (Rabs_pos q); lra).
  assert (Q : 0 < c / (e * eps)) by (apply Rdiv_lt_0_compat; [exact Pc|apply Rmult_lt_0_compat; assumption]). exists (c / (e * eps)). split; [lra|]. intros b L.
  exists (q * (exp (- (e * 0)) - exp (- (e * b)))). split; [apply I; lra|]. rewrite Rmult_0_r, Ropp_0, exp_0.
  replace (q * (1 - exp (- (e * b))) - q) with (- (q * exp (- (e * b)))) by ring. rewrite Rabs_Ropp, Rabs_mult, (Rabs_right (exp _)) by (left; apply exp_pos).
  pose proof (exp_tail e b P ltac:(lra)) as T. replace (- e * b) with (- (e * b)) in T by ring.
  apply Rle_lt_trans with (c * exp (- (e * b))); [apply Rmult_le_compat_r; [left; apply exp_pos|unfold c; lra]|].
  apply Rlt_le_trans with (c * / (e * b)); [apply Rmult_lt_compat_l; assumption|].
  apply (Rmult_le_reg_r (e * b)); [apply Rmult_lt_0_compat; lra|]. rewrite Rmult_assoc, Rinv_l, Rmult_1_r by (apply Rgt_not_eq, Rmult_lt_0_compat; lra).
  apply (Rmult_le_compat_r (e * eps)) in L; [|left; apply Rmult_lt_0_compat; assumption]. replace (c / (e * eps) * (e * eps)) with c in L by (field; lra). lra.
Qed.
Print Assumptions C151_ctmc_step_law.

(** ** Runs *)
Lemma won_run (m : ctmc R) samples : wf_ctmc m -> forall (ps : list (string * R)) l s k, (s < ct_n m)%nat -> (forall t, In t (map snd ps) -> t < 1024) ->
  (ct_run_from m (length ps) s samples k = Ok (ps, l) <-> exists x, won m samples k s x (map snd ps) /\ labels_of m (s :: x) = map fst ps ++ [l]).
Proof.
  intros W. induction ps as [|[o t] ps IH]; intros l s k Ls Ht; cbn [length ct_run_from map fst snd].
  - rewrite (at_list_nth _ _ EmptyString) by (destruct W as (_ & Ll & _); lia). cbn [bind]. split.
    + intros [= <-]. exists []. split; reflexivity.
    + intros ([|a x] & Wx & Ex); [|contradiction]. injection Ex as <-. reflexivity.
  - assert (Lt : t < 1024) by (apply Ht; left; reflexivity). assert (Ht' : forall t, In t (map snd ps) -> t < 1024) by (intros u I; apply Ht; right; exact I).
    assert (LR : length (nth s (ct_mat m) []) = ct_n m) by (destruct W as ((_ & Lr) & _); apply Lr, nth_In; exact Ls).
    split.
    + destruct (ct_next m s (samples k)) as [[[o' s'] t']|e] eqn:E; [|discriminate]. cbn [bind].
      destruct (ct_run_from m (length ps) s' samples (S k)) as [[ps' l']|e] eqn:E'; [|discriminate]. cbn [bind fst snd]. intros [= -> -> -> ->].
      apply (C151_ctmc_next_race m s (samples k) o s' t W Ls Lt) in E as [-> Wn].
      assert (Ls' : (s' < ct_n m)%nat) by (destruct Wn as (L & _); lia).
      apply IH in E' as (x & Wx & Ex); [|exact Ls'|exact Ht']. exists (s' :: x). split; [split; assumption|]. cbn [labels_of map app] in *. f_equal. exact Ex.
    + intros ([|s' x] & Wx & Ex); [contradiction|]. destruct Wx as [Wn Wx]. cbn [labels_of map app] in Ex. injection Ex as Eo Ex.
      assert (Ls' : (s' < ct_n m)%nat) by (destruct Wn as (L & _); lia).
      rewrite (proj2 (C151_ctmc_next_race m s (samples k) o s' t W Ls Lt)) by (split; [symmetry; exact Eo|exact Wn]). cbn [bind].
      rewrite (proj2 (IH l s' (S k) Ls' Ht')); [reflexivity|]. exists x. split; assumption.
Qed.

(** A run returns the labels and times exactly when some path with these labels
    wins all the races with these times. *)
Theorem C151_ctmc_run_race : forall (m : ctmc R) (r0 : R) samples (ps : list (string * R)) (l : string),
  wf_ctmc m -> is_dist (ct_ini m) -> unit_draw r0 -> (forall t, In t (map snd ps) -> t < 1024) ->
  (ct_run m (Z.of_nat (length ps)) r0 samples = Ok (ps, l) <->
   exists s x, selected (ct_ini m) r0 s /\ won m samples 0 s x (map snd ps) /\ labels_of m (s :: x) = map fst ps ++ [l]).
Proof.
  intros m r0 samples ps l W DI U Ht. unfold ct_run. destruct (dist_selects _ r0 DI U) as (c & Ec & Sc). rewrite Ec. cbn [bind]. rewrite Nat2Z.id.
  assert (Li : length (ct_ini m) = ct_n m) by apply W. assert (Lc : (c < ct_n m)%nat) by (destruct Sc as [L _]; lia).
  rewrite (won_run m samples W ps l c 0 Lc Ht). split.
  - intros (x & H). exists c, x. tauto.
  - intros (s & x & Ss & H). apply (selected_iff _ _ _ (proj1 DI)) in Ss; [|apply U]. assert (s = c) as -> by congruence. eauto.
Qed.
Print Assumptions C151_ctmc_run_race.

Lemma path_race (m : ctmc R) : wf_ctmc m -> forall x s obs ts, (forall j, In j (s :: x) -> (j < ct_n m)%nat) -> length ts = length x -> length obs = S (length x) ->
  path_weight (map (jump_density m) ts) (map (is_label (ct_lab m)) obs) (s :: x) =
  if list_eq_dec String.string_dec (labels_of m (s :: x)) obs then race_weight m s x ts else 0.
Proof.
  intros W. induction x as [|s' x IH]; intros s obs ts Lx Lt Lo; destruct ts as [|t ts]; try discriminate; destruct obs as [|o obs]; try discriminate.
  - destruct obs; [|discriminate]. cbn [map path_weight race_weight labels_of]. unfold is_label. destruct (String.eqb_spec (nth s (ct_lab m) EmptyString) o) as [->|N].
    + destruct (list_eq_dec _ _ _) as [_|N]; [ring|congruence].
    + destruct (list_eq_dec _ _ _) as [E|_]; [congruence|ring].
  - destruct obs as [|o' obs]; [discriminate|].
    change (path_weight (map (jump_density m) (t :: ts)) (map (is_label (ct_lab m)) (o :: o' :: obs)) (s :: s' :: x))
      with (is_label (ct_lab m) o s * (jump_density m t s s' * path_weight (map (jump_density m) ts) (map (is_label (ct_lab m)) (o' :: obs)) (s' :: x))).
    rewrite IH by (try (intros j I; apply Lx; right; exact I); cbn in *; lia). cbn [race_weight].
    rewrite (race_jump m s s' t W) by (apply Lx; cbn; auto). unfold is_label.
    change (labels_of m (s :: s' :: x)) with (nth s (ct_lab m) EmptyString :: labels_of m (s' :: x)).
    destruct (String.eqb_spec (nth s (ct_lab m) EmptyString) o) as [->|N].
    + destruct (list_eq_dec _ (labels_of m (s' :: x)) _) as [E|N]; destruct (list_eq_dec _ (o :: _) _) as [E'|N']; try congruence; ring.
    + destruct (list_eq_dec _ (_ :: _) _) as [E'|N']; [congruence|]. ring.
Qed.
Lemma paths_range n T x : In x (paths n T) -> length x = T /\ forall j, In j x -> (j < n)%nat.
Proof.
  revert x. induction T as [|T IH]; intros x I; cbn [paths] in I.
  - destruct I as [<-|[]]. split; [reflexivity|intros j []].
  - apply in_flat_map in I as (s & Is & I). apply in_seq in Is. apply in_map_iff in I as (y & <- & I). apply IH in I as [L R]. split; [cbn; lia|]. intros j [<-|J]; [lia|auto].
Qed.

(** The density that logLikelihood uses for a timed trace is the density with
    which [run] produces it: the sum, over the state paths with these labels, of
    the probability of the first state times the densities of the races. *)
Theorem C151_ctmc_density_of_run : forall (m : ctmc R) (obs : list string) (ts : list R), wf_ctmc m -> length obs = S (length ts) ->
  ct_density m (obs, ts) = sumL (paths (ct_n m) (length obs)) (fun x =>
    if list_eq_dec String.string_dec (labels_of m x) obs then vecR (ct_ini m) (hd O x) * race_weight m (hd O x) (tl x) ts else 0).
Proof.
  intros m obs ts W L. unfold ct_density, trace_prob. cbn [fst snd]. rewrite map_length. apply sumL_ext. intros x I. apply paths_range in I as [Lx Rx].
  destruct x as [|s x]; [cbn in Lx; lia|]. cbn [hd tl]. rewrite (path_race m W) by (auto; cbn in Lx; lia). destruct (list_eq_dec _ _ _); ring.
Qed.
Print Assumptions C151_ctmc_density_of_run.

(** ** Times over 1024 *)

(** In a state with a transition of rate 0 the returned time is never over 1024,
    and the simulation jumps along a transition of rate 0, although the density
    of that jump is 0 at every time, when every sample is over 1024; samples of
    the rates of the state are all over 1024 with a positive probability. *)
Theorem C151_ctmc_zero_rate : forall (m : ctmc R) (s k : nat) (sample : nat -> R), wf_ctmc m -> (s < ct_n m)%nat ->
  (k < ct_n m)%nat -> nth k (nth s (ct_mat m) []) 0 = 0 ->
  exists i t, ct_next m s sample = Ok (nth s (ct_lab m) EmptyString, i, t) /\ t <= 1024 /\
    ((forall j, (j < ct_n m)%nat -> 0 < nth j (nth s (ct_mat m) []) 0 -> 1024 < sample j) ->
     t = 1024 /\ nth i (nth s (ct_mat m) []) 0 <= 0) /\
    (0 < nth i (nth s (ct_mat m) []) 0 \/ forall j, (j < ct_n m)%nat -> 0 < nth j (nth s (ct_mat m) []) 0 -> 1024 <= sample j).
Proof.
  intros m s k sample ((Lm & Lr) & Ll & _) Ls Lk Zk. assert (LR : length (nth s (ct_mat m) []) = ct_n m) by (apply Lr, nth_In; exact Ls).
  destruct (ct_next_spec m s sample Ls ltac:(lia)) as (i & t & E & Li & T & MIN & _). { intros X. rewrite X in LR. cbn in LR. lia. }
  unfold matR in *. rewrite LR in *. exists i, t. split; [exact E|]. pose proof (MIN k Lk) as Mk. destruct (Rle_dec (nth k _ 0) 0); [|lra]. split; [exact Mk|].
  destruct (Rle_dec (nth i (nth s (ct_mat m) []) 0) 0) as [Z|Z].
  - split; [intros _; split; assumption|right]. intros j Lj Pj. specialize (MIN j Lj). destruct (Rle_dec (nth j _ 0) 0); lra.
  - split; [intros H; specialize (H i Li); lra|left; lra].
Qed.
Print Assumptions C151_ctmc_zero_rate.
Theorem C151_all_late : forall (row : list R) t, fold_right Rmult 1 (map (fun r => exp_survival r t) row) = exp_survival (rsum row) t.
Proof.
  intros row t. unfold exp_survival. induction row as [|r row IH]; [cbn; rewrite Rmult_0_l, Ropp_0, exp_0; reflexivity|].
  cbn [map fold_right]. rewrite IH, <- exp_plus. change (rsum (r :: row)) with (r + rsum row). f_equal. ring.
Qed.

Print Assumptions C151_all_late.

(** The simulated times do not follow the exponential law beyond 1024: the model
    gives a positive probability to times between 1024 and 2048, and no samples
    at all make [next] return one. *)
Theorem C151_ctmc_long_times_refuted : exists (m : ctmc R) (s i : nat), wf_ctmc m /\ (s < ct_n m)%nat /\ 0 < jump m s i /\
  (exists p, 0 < p /\ integral (race_density (nth s (ct_mat m) []) i) 1024 2048 p) /\
  (forall sample o i' t, ct_next m s sample = Ok (o, i', t) -> ~ 1024 < t) /\
  (forall sample, (forall j, (j < ct_n m)%nat -> 1024 < sample j) ->
     exists o i', ct_next m s sample = Ok (o, i', 1024) /\ jump m s i' = 0) /\
  0 < exp_survival (exit_rate m s) 1024.
Proof.
  assert (W : wf_ctmc ex_ct) by (destruct C25_instance as (W & _); exact W).
  assert (X : exit_rate ex_ct 0 = 2) by (unfold exit_rate; cbn; lra).
  assert (J : jump ex_ct 0 1 = 1) by (unfold jump; rewrite X; unfold matR; cbn; lra).
  exists ex_ct, O, 1%nat. split; [exact W|]. split; [cbn; lia|]. split; [rewrite J; lra|]. split; [|split; [|split]].
  - destruct (C151_ctmc_step_law ex_ct 0 1 W) as (_ & I & _); [cbn; lia|cbn; lia|rewrite X; lra|]. eexists. split; [|apply I; lra]. rewrite J, X, Rmult_1_l.
    apply Rlt_Rminus, exp_increasing. lra.
  - intros sample o i' t E. destruct (C151_ctmc_zero_rate ex_ct 0 0 sample W) as (i & t' & E' & L & _); [cbn; lia|cbn; lia|reflexivity|]. rewrite E' in E. injection E as <- <- <-. lra.
  - intros sample H. destruct (C151_ctmc_zero_rate ex_ct 0 0 sample W) as (i & t' & E' & L & Z & _); [cbn; lia|cbn; lia|reflexivity|]. destruct Z as [-> Z]; [intros j Lj _; apply H; exact Lj|].
    eexists _, i. split; [exact E'|]. unfold jump. rewrite X. unfold matR in *. destruct i as [|[|i]]; cbn in Z |- *; try lra. destruct i; lra.
  - apply exp_pos.
Qed.
Print Assumptions C151_ctmc_long_times_refuted.

(** A run of two steps of the same CTMC, its path and its density. *)
Example C151_instance :
  (let samples := fun k j : nat => match k, j with O, O => 1/2 | O, _ => 3/4 | _, O => 9 | _, _ => 1 end in
   let ps := [("init", 1/2); ("a", 1)]%string in
   wf_ctmc ex_ct /\ is_dist (ct_ini ex_ct) /\ unit_draw (1/3) /\ (forall t, In t (map snd ps) -> t < 1024) /\
   ct_run ex_ct 2 (1/3) samples = Ok (ps, "init"%string) /\
   won ex_ct samples 0 1 [0; 1]%nat (map snd ps) /\ labels_of ex_ct [1; 0; 1]%nat = map fst ps ++ ["init"%string]) /\
  ct_density ex_ct (["init"; "a"; "init"]%string, [1/2; 1]) = 3 * exp (- (4 * (1/2))) * (2 * exp (- (2 * 1))).
Proof.
  assert (W : wf_ctmc ex_ct) by (destruct C25_instance as (W & _); exact W).
  assert (D : is_dist (ct_ini ex_ct)) by (destruct C25_instance as (_ & D & _); exact D).
  split.
  - cbv zeta. set (samples := fun k j : nat => _). assert (HW : won ex_ct samples 0 1 [0; 1]%nat [1/2; 1]).
    { split; [|split; [|exact I]].
      - split; [cbn; lia|]. split; [cbn; lra|]. split; [reflexivity|]. intros [|[|j]] Lj Pj; cbn in Lj; try lia; (split; [cbn; lra|intros; try lia; cbn; lra]).
      - split; [cbn; lia|]. split; [cbn; lra|]. split; [reflexivity|]. intros [|[|j]] Lj Pj; cbn in Lj, Pj; try lia; try lra; (split; [cbn; lra|intros; lia]). }
    assert (HT : forall t, In t [1/2; 1] -> t < 1024) by (intros t [<-|[<-|[]]]; lra).
    assert (HU : unit_draw (1/3)) by (unfold unit_draw; lra).
    split; [exact W|]. split; [exact D|]. split; [exact HU|]. split; [exact HT|]. split; [|split; [exact HW|reflexivity]].
    apply (C151_ctmc_run_race ex_ct (1/3) samples [("init", 1/2); ("a", 1)]%string "init"%string W D HU HT).
    exists 1%nat, [0; 1]%nat. split; [|split; [exact HW|reflexivity]].
    unfold selected. cbn. split; [lia|lra].
  - rewrite C151_ctmc_density_of_run by (try exact W; reflexivity). unfold sumL. cbn [length paths ct_n ct_mat ex_ct seq flat_map map app rsum fold_right hd tl].
    unfold labels_of. cbn. unfold race_density, others_survive, exp_density, exp_survival. cbn. 
    replace (exp (- (4 * (1 / 2)))) with (exp (- (3 * (1/2))) * exp (- (1 * (1/2)))) by (rewrite <- exp_plus; f_equal; lra). unfold vecR. cbn.
    replace (exp (- (0 * 1))) with 1 by (rewrite Rmult_0_l, Ropp_0, exp_0; reflexivity). ring.
Qed.
