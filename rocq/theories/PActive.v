(** Theorems C63, C64, C100-C106: active learning of MDPs. *)
From Coq Require Import String ZArith Bool Reals List Lra Lia Arith.
From Verif Require Import Num Py SNum LSum MTools LTools SPath LPath MSet SSet LSet MModels MCtor SBW SLik MLik MBW MRun SRun LCtor LRun PRun LFB LLik LLik2 LBW LBWSet LEM LEMGen LBWMDP SExp PLik PBWMDP.
From Verif Require Import MActive SActive.
Import ListNotations.
Local Open Scope R_scope.

(** ** C63: the weights of the actions *)
Lemma weights_eq nb (row : list R) : (2 <= nb)%nat -> rsum row <> 0 ->
  al_weights nb row = Some (map (fun i => (rsum row - i) / (rsum row * IZR (Z.of_nat nb - 1))) row).
Proof.
  intros L N. unfold al_weights. change (@nsum R RNum row) with (rsum row). nR. unfold Reqb.
  destruct (Req_EM_T _ 0) as [E|E]; [|reflexivity]. exfalso. apply Rmult_integral in E as [E|E]; [contradiction|].
  apply eq_IZR in E. lia.
Qed.
Lemma rsum_pos_le (l : list R) : nonneg l -> forall x, In x l -> x <= rsum l.
Proof.
  induction l as [|y l IH]; intros N x; [intros []|]. change (rsum (y :: l)) with (y + rsum l).
  assert (N' : nonneg l) by (intros z I; apply N; right; exact I).
  assert (0 <= rsum l). { clear -N'. induction l as [|z l IH]; cbn; [lra|]. change (0 <= z + rsum l). assert (0 <= z) by (apply N'; left; reflexivity).
    assert (0 <= rsum l) by (apply IH; intros w I; apply N'; right; exact I). lra. }
  intros [<-|I]; [lra|]. pose proof (IH N' x I). assert (0 <= y) by (apply N; left; reflexivity). lra.
Qed.
Lemma rsum_affine (l : list R) a d : rsum (map (fun i => (a - i) / d) l) = (INR (length l) * a - rsum l) / d.
Proof.
  induction l as [|x l IH]; [cbn; unfold Rdiv; ring|]. cbn [map length].
  change (rsum ((a - x) / d :: map (fun i => (a - i) / d) l)) with ((a - x) / d + rsum (map (fun i => (a - i) / d) l)).
  change (rsum (x :: l)) with (x + rsum l). rewrite IH, S_INR. unfold Rdiv. ring.
Qed.
Lemma vec_map (f : R -> R) l i : (i < length l)%nat -> vecR (map f l) i = f (vecR l i).
Proof. intros H. unfold vecR. rewrite (nth_indep _ 0 (f 0)) by (rewrite map_length; exact H). apply map_nth. Qed.
Lemma vec_In (l : list R) i : (i < length l)%nat -> In (vecR l i) l.
Proof. intros H. apply nth_In. exact H. Qed.

(** In a state used at least once, with at least two actions: the weights are a
    distribution, a less used action has a larger weight, an action has weight 0
    exactly when it is the only one used, and the weights decide the choice. *)
Theorem C63_weights : forall (nb : nat) (row : list R),
  (2 <= nb)%nat -> length row = nb -> nonneg row -> 0 < rsum row ->
  exists w, al_weights nb row = Some w /\ length w = nb /\ is_dist w /\
    (forall i j, (i < nb)%nat -> (j < nb)%nat -> (vecR row i < vecR row j <-> vecR w j < vecR w i)) /\
    (forall i, (i < nb)%nat -> vecR w i <= 1 / INR (nb - 1)) /\
    (forall i, (i < nb)%nat -> (vecR w i = 0 <-> vecR row i = rsum row)) /\
    (forall r k, 0 <= r -> (al_getActionState nb row r = Ok k <-> selected w r k)).
Proof.
  intros nb row L2 Ln N P. pose proof (weights_eq nb row L2 ltac:(lra)) as E.
  set (d := rsum row * IZR (Z.of_nat nb - 1)) in *. set (w := map (fun i => (rsum row - i) / d) row) in *.
  assert (Id : IZR (Z.of_nat nb - 1) = INR (nb - 1)). { rewrite INR_IZR_INZ. f_equal. lia. }
  assert (I1 : 1 <= INR (nb - 1)). { change 1 with (INR 1). apply le_INR. lia. }
  assert (D : 0 < d). { unfold d. rewrite Id. apply Rmult_lt_0_compat; lra. }
  assert (G : forall i, (i < nb)%nat -> vecR w i = (rsum row - vecR row i) / d) by (intros i Hi; unfold w; rewrite vec_map by lia; reflexivity).
  assert (Nw : nonneg w).
  { intros x I. unfold w in I. apply in_map_iff in I as (y & <- & I). apply Rmult_le_pos; [pose proof (rsum_pos_le row N y I); lra|]. left. apply Rinv_0_lt_compat, D. }
  assert (Sw : rsum w = 1).
  { unfold w. rewrite rsum_affine, Ln. unfold d. rewrite Id. replace (INR nb) with (INR (nb - 1) + 1) by (rewrite <- S_INR; f_equal; lia). field. lra. }
  exists w. split; [exact E|]. split; [unfold w; rewrite map_length; exact Ln|]. split; [split; assumption|].
  split; [|split; [|split]].
  - intros i j Hi Hj. rewrite !G by assumption. split; intros H.
    + apply Rmult_lt_compat_r; [apply Rinv_0_lt_compat, D|lra].
    + apply Rmult_lt_reg_r in H; [lra|apply Rinv_0_lt_compat, D].
  - intros i Hi. rewrite G by exact Hi. unfold d. rewrite Id.
    replace (1 / INR (nb - 1)) with (rsum row / (rsum row * INR (nb - 1))) by (field; lra).
    assert (0 <= vecR row i) by (apply N, vec_In; lia).
    apply Rmult_le_compat_r; [|lra]. left. apply Rinv_0_lt_compat. apply Rmult_lt_0_compat; lra.
  - intros i Hi. rewrite G by exact Hi. split; intros H; [|rewrite H; unfold Rdiv; rewrite Rminus_diag_eq by reflexivity; ring].
    apply Rmult_integral in H as [H|H]; [lra|]. exfalso. revert H. apply Rinv_neq_0_compat. lra.
  - intros r k Hr. unfold al_getActionState. rewrite E. apply selected_iff; assumption.
Qed.
Print Assumptions C63_weights.
Example C63_weights_instance : (2 <= 3)%nat /\ length [1; 3; 0] = 3%nat /\ nonneg [1; 3; 0] /\ 0 < rsum [1; 3; 0].
Proof. split; [lia|]. split; [reflexivity|]. split; [intros x [<-|[<-|[<-|[]]]]; lra|cbn; lra]. Qed.

(** With a single action it is chosen. *)
Theorem C63_single_action : forall (c r : R), al_getActionState 1 [c] r = Ok O.
Proof.
  intros c r. unfold al_getActionState, al_weights. nR. unfold Reqb. change (Z.of_nat 1 - 1)%Z with 0%Z.
  destruct (Req_EM_T _ 0) as [_|E]; [reflexivity|]. exfalso. apply E. ring.
Qed.
Print Assumptions C63_single_action.

(** In a state never used the weights are not numbers: the first action is always
    chosen, whatever the draw. *)
Theorem C63_unused_state_refuted : forall (nb : nat) (row : list R), row <> [] -> rsum row = 0 ->
  al_weights nb row = None /\ forall r, al_getActionState nb row r = Ok O.
Proof.
  intros nb row NE Z. assert (E : al_weights nb row = None).
  { unfold al_weights. change (@nsum R RNum row) with (rsum row). rewrite Z. nR. unfold Reqb. destruct (Req_EM_T _ 0) as [_|E]; [reflexivity|]. exfalso. apply E. ring. }
  split; [exact E|]. intros r. unfold al_getActionState. rewrite E. destruct row; [contradiction|reflexivity].
Qed.
Print Assumptions C63_unused_state_refuted.
Example C63_unused_state_instance : [0; 0; 0] <> [] /\ rsum [0; 0; 0] = 0.
Proof. split; [discriminate|cbn; lra]. Qed.

(** ** C100: the belief of the scheduler *)
Lemma told_app h st x y : told h st (x ++ y) = do st' <- told h st x; told h st' y.
Proof.
  revert st. induction x as [|[o k] x IH]; intros st; [reflexivity|]. cbn [app told].
  destruct (al_addObservation _ _ o); [apply IH|reflexivity].
Qed.
Lemma named_app h x y : named h (x ++ y) = named h x ++ named h y.
Proof. apply map_app. Qed.
Lemma nonneg_zero l : nonneg l -> rsum l <= 0 -> forall x, In x l -> x = 0.
Proof. intros N Z x I. pose proof (rsum_pos_le l N x I). pose proof (N x I). lra. Qed.

Lemma state_prob_steps (h : mdp R) hist s : wf_mdp h -> (s < mdp_n h)%nat ->
  state_prob h hist s = steps (mdp_n h) (vget (mdp_ini h)) (map (mdp_w h) hist) s.
Proof.
  intros W Hs. unfold state_prob. rewrite paths_tot by (rewrite !map_length; reflexivity).
  replace (wts (map (act_mat h) (map snd hist)) (map (is_label (mdp_lab h)) (map fst hist))) with (map (mdp_w h) hist).
  2:{ rewrite <- wts_combine by exact W. f_equal. clear. induction hist as [|[o a] hist IH]; [reflexivity|]. cbn. f_equal. exact IH. }
  rewrite tot_steps. change (vecR (mdp_ini h)) with (vget (mdp_ini h)).
  rewrite (Sum_ext _ _ (fun i => if Nat.eqb i s then steps (mdp_n h) (vget (mdp_ini h)) (map (mdp_w h) hist) i else 0)).
  - apply (Sum_indicator_in _ s _ Hs).
  - intros i Hi. destruct (Nat.eqb i s); ring.
Qed.
Lemma mdp_w_nonneg (h : mdp R) oa : wf_mdp h -> nonneg_mdp h -> okw (mdp_n h) (mdp_w h oa).
Proof.
  intros W N s s' Hs Hs'. destruct oa as [o a]. rewrite mdp_w_eq by exact W. apply Rmult_le_pos; [apply is_label_nonneg|]. apply act_nonneg. exact N.
Qed.
Lemma steps_nonneg n a W : okf n a -> Forall (okw n) W -> okf n (steps n a W).
Proof. intros Ha HW. revert a Ha. induction HW as [|w W Hw HW IH]; intros a Ha; [exact Ha|]. apply IH. apply step_nonneg; assumption. Qed.
Lemma state_prob_nonneg (h : mdp R) hist s : wf_mdp h -> nonneg_mdp h -> (s < mdp_n h)%nat -> 0 <= state_prob h hist s.
Proof.
  intros W N Hs. rewrite state_prob_steps by assumption. apply steps_nonneg; [| |exact Hs].
  - intros i Hi. change (0 <= vecR (mdp_ini h) i). apply vecR_nonneg, W.
  - apply Forall_forall. intros w I. apply in_map_iff in I as (oa & <- & _). apply mdp_w_nonneg; assumption.
Qed.
Lemma vbuild_vget n (l : list R) : length l = n -> vbuild n (vget l) = l.
Proof.
  intros L. apply (nth_ext _ _ 0 0); [rewrite vbuild_length; auto|]. intros i Hi. rewrite vbuild_length in Hi.
  change (vget (vbuild n (vget l)) i = vget l i). apply vget_vbuild. exact Hi.
Qed.
Lemma state_prob_nil (h : mdp R) : wf_mdp h -> vbuild (mdp_n h) (state_prob h []) = mdp_ini h.
Proof.
  intros W. rewrite <- (vbuild_vget (mdp_n h) (mdp_ini h)) by apply W. apply vbuild_ext. intros s Hs. rewrite state_prob_steps by assumption. reflexivity.
Qed.
Lemma state_prob_snoc (h : mdp R) hist oa : wf_mdp h ->
  vbuild (mdp_n h) (state_prob h (hist ++ [oa])) = fstep (mdp_n h) (vbuild (mdp_n h) (state_prob h hist)) (mdp_w h oa).
Proof.
  intros W. unfold fstep. apply vbuild_ext. intros s Hs. rewrite state_prob_steps by assumption. rewrite map_app. unfold steps. rewrite fold_left_app. cbn [map fold_left].
  rewrite ndot_vbuild by apply vbuild_length. unfold step. apply Sum_ext. intros i Hi. rewrite vget_vbuild by exact Hi. rewrite state_prob_steps by assumption. reflexivity.
Qed.

Lemma al_count_spec n (b : list R) tot k mat J : shaped n J mat -> (k < J)%nat ->
  shaped n J (al_count n b tot k mat) /\
  forall s j, (s < n)%nat -> mget (al_count n b tot k mat) s j = mget mat s j + (if Nat.eqb k j then vecR b s / tot else 0).
Proof.
  intros SH Hk.
  assert (G : forall d m, (d <= n)%nat -> shaped n J m ->
     let m' := fold_left (fun m s => upd m s (upd (nth s m []) k (vget (nth s m []) k + vget b s / tot))) (seq 0 d) m in
     shaped n J m' /\ (forall s j, (s < d)%nat -> mget m' s j = mget m s j + (if Nat.eqb k j then vecR b s / tot else 0)) /\
     (forall s, (d <= s)%nat -> nth s m' [] = nth s m [])).
  { induction d as [|d IH]; intros m Hd Hm; [cbn; repeat split; try apply Hm; intros; lia|].
    rewrite seq_S, fold_left_app. cbn [fold_left]. rewrite Nat.add_0_l. destruct (IH m ltac:(lia) Hm) as (S1 & E1 & O1).
    set (m1 := fold_left _ (seq 0 d) m) in *. cbv zeta. destruct S1 as [L1 R1].
    assert (Ld : (d < length m1)%nat) by lia.
    split; [|split].
    - split; [rewrite upd_length; exact L1|]. intros s Hs. rewrite (upd_nth _ _ _ _ _ Ld).
      destruct (d =? s)%nat eqn:Q; [|apply R1, Hs]. apply Nat.eqb_eq in Q as ->. rewrite upd_length. apply R1, Hs.
    - intros s j Hs. unfold mget. rewrite (upd_nth _ _ _ _ _ Ld). destruct (Nat.eqb_spec d s) as [<-|NE].
      + unfold vget. nR. rewrite (upd_nth _ _ _ _ _ (eq_ind_r (fun x => (k < x)%nat) Hk (R1 d ltac:(lia)))).
        rewrite (O1 d) by lia. destruct (Nat.eqb_spec k j) as [<-|]; [unfold vecR; reflexivity|ring].
      + apply (E1 s j). lia.
    - intros s Hs. rewrite (upd_nth _ _ _ _ _ Ld). destruct (Nat.eqb_spec d s); [lia|]. apply O1. lia. }
  destruct (G n mat (le_n _) SH) as (A & B & _). split; [exact A|]. exact B.
Qed.
Lemma belief_zero n (b : list R) w : length b = n -> nonneg b -> rsum b <= 0 -> fstep n b w = b.
Proof.
  intros L N Z. pose proof (nonneg_zero b N Z) as A. rewrite <- (vbuild_vget n b L) at 2. unfold fstep. apply vbuild_ext. intros s Hs.
  rewrite ndot_vbuild by exact L. rewrite Sum_zero_ext.
  - symmetry. apply A. apply nth_In. lia.
  - intros i Hi. rewrite (A (vget b i)); [ring|]. apply nth_In. lia.
Qed.
Lemma observe (h : mdp R) (b : list R) mat k o : wf_mdp h -> length b = mdp_n h -> nonneg b -> (k < length (mdp_act h))%nat ->
  shaped (mdp_n h) (length (mdp_act h)) mat ->
  exists mat' l', al_addObservation h (mkAL (Some mat) b (Some k)) o = Ok (mkAL (Some mat') (fstep (mdp_n h) b (mdp_w h (o, nth k (mdp_act h) EmptyString))) l') /\
    shaped (mdp_n h) (length (mdp_act h)) mat' /\
    forall s j, (s < mdp_n h)%nat -> mget mat' s j = mget mat s j + (if Nat.eqb k j then if Rlt_dec 0 (rsum b) then vecR b s / rsum b else 0 else 0).
Proof.
  intros W L N Hk SH. unfold al_addObservation. cbn [al_mat al_belief al_last]. change (@nsum R RNum b) with (rsum b).
  destruct (@nltb R RNum n0 (rsum b)) eqn:E.
  - apply Rltb_true in E. change (0 < rsum b) in E. rewrite (at_list_nth _ _ EmptyString) by exact Hk. cbn [bind].
    destruct (al_count_spec (mdp_n h) b (rsum b) k mat _ SH Hk) as [S1 C1].
    eexists _, _. split; [reflexivity|]. split; [exact S1|]. intros s j Hs. rewrite C1 by exact Hs.
    destruct (Nat.eqb k j); [|reflexivity]. destruct (Rlt_dec 0 (rsum b)); [reflexivity|contradiction].
  - apply Rltb_false in E. change (rsum b <= 0) in E. rewrite belief_zero by assumption. eexists _, _. split; [reflexivity|]. split; [exact SH|].
    intros s j Hs. destruct (Rlt_dec 0 (rsum b)); [lra|]. destruct (Nat.eqb k j); ring.
Qed.

(** After any history the belief is, for every state, the probability of the
    history under the hypothesis and of being in that state, and the counts have
    grown by the expected uses of each action in each state. *)
Theorem C100_belief : forall (h : mdp R) (mat : list (list R)) (hist : list (string * nat)),
  wf_mdp h -> nonneg_mdp h -> shaped (mdp_n h) (length (mdp_act h)) mat ->
  (forall o k, In (o, k) hist -> (k < length (mdp_act h))%nat) ->
  exists st mat', told h (al_new (Some mat) h) hist = Ok st /\
    al_belief st = vbuild (mdp_n h) (state_prob h (named h hist)) /\
    al_mat st = Some mat' /\ shaped (mdp_n h) (length (mdp_act h)) mat' /\
    forall s j, (s < mdp_n h)%nat -> mget mat' s j = mget mat s j + uses h hist s j.
Proof.
  intros h mat hist W N SH. induction hist as [|[o k] hist IH] using rev_ind; intros K.
  - exists (al_new (Some mat) h), mat. split; [reflexivity|]. split.
    { cbn [named map]. rewrite state_prob_nil by exact W. unfold al_new, al_reset. cbn [al_belief]. apply vbuild_vget, W. }
    split; [reflexivity|]. split; [exact SH|]. intros s j Hs. unfold uses. cbn [length]. rewrite Sum_0. ring.
  - destruct IH as (st & m1 & E & B & M & S1 & C). { intros o' k' I. apply (K o' k'), in_or_app. left; exact I. }
    rewrite told_app, E. cbn [bind told]. rewrite M, B.
    destruct (observe h (vbuild (mdp_n h) (state_prob h (named h hist))) m1 k o W) as (m2 & l & E2 & S2 & C2).
    { apply vbuild_length. }
    { intros x I. apply in_map_iff in I as (i & <- & I). apply in_seq in I. apply state_prob_nonneg; auto. lia. }
    { apply (K o k), in_or_app. right; left; reflexivity. }
    { exact S1. }
    rewrite E2. eexists _, m2. split; [reflexivity|]. cbn [al_belief al_mat]. split.
    { rewrite named_app, <- state_prob_snoc by exact W. reflexivity. }
    split; [reflexivity|]. split; [exact S2|]. intros s j Hs. rewrite C2, C by exact Hs.
    unfold uses. rewrite app_length. cbn [length]. rewrite Nat.add_1_r, Sum_S. rewrite app_nth2, Nat.sub_diag by lia. cbn [nth snd].
    rewrite firstn_app, Nat.sub_diag, firstn_all. cbn [firstn]. rewrite app_nil_r.
    rewrite rsum_vbuild. change (Sum (mdp_n h) (state_prob h (named h hist))) with (hist_prob h (named h hist)).
    change (vecR (vbuild (mdp_n h) (state_prob h (named h hist))) s) with (vget (vbuild (mdp_n h) (state_prob h (named h hist))) s).
    rewrite vget_vbuild by exact Hs. rewrite Rplus_assoc. f_equal. f_equal.
    apply Sum_ext. intros t Ht. rewrite app_nth1 by exact Ht. rewrite firstn_app. replace (t - length hist)%nat with O by lia. cbn [firstn]. rewrite app_nil_r. reflexivity.
Qed.
Print Assumptions C100_belief.
(** Each observation made after a possible past adds exactly one use. *)
Theorem C100_one_use_per_step : forall (h : mdp R) (hist : list (string * nat)) (j : nat),
  Sum (mdp_n h) (fun s => uses h hist s j) =
  Sum (length hist) (fun t => if Nat.eqb (snd (nth t hist (EmptyString, O))) j then if Rlt_dec 0 (hist_prob h (named h (firstn t hist))) then 1 else 0 else 0).
Proof.
  intros h hist j. unfold uses. rewrite Sum_swap. apply Sum_ext. intros t Ht. destruct (Nat.eqb _ j); [|apply Sum_zero].
  destruct (Rlt_dec 0 _) as [P|]; [|apply Sum_zero]. rewrite Sum_div_r. fold (hist_prob h (named h (firstn t hist))). field. lra.
Qed.
Print Assumptions C100_one_use_per_step.
Example C100_instance : wf_mdp ex_mdp /\ nonneg_mdp ex_mdp /\ shaped (mdp_n ex_mdp) (length (mdp_act ex_mdp)) [[0; 0]; [0; 0]] /\
  (forall o k, In (o, k) [("x"%string, O); ("y"%string, O)] -> (k < length (mdp_act ex_mdp))%nat) /\
  0 < hist_prob ex_mdp (named ex_mdp [("x"%string, O)]) /\ uses ex_mdp [("x"%string, O)] 0 0 = 1.
Proof.
  destruct C36_C37_C40_C42_instance as (W & N & _). split; [exact W|]. split; [exact N|]. split.
  { split; [reflexivity|]. intros s Hs. destruct s as [|[|s]]; [reflexivity|reflexivity|cbn in Hs; lia]. }
  split; [intros o k [E|[E|[]]]; inversion E; subst; cbn; lia|].
  assert (S0 : forall s, state_prob ex_mdp (named ex_mdp []) s = if Nat.eqb 0 s then 1 else 0).
  { intros s. unfold state_prob, trace_prob, sumL. cbn. destruct s as [|s]; cbn; [lra|]. destruct (Nat.eqb 0 s); lra. }
  split.
  { unfold hist_prob, state_prob, trace_prob, act_mat, is_label, Sum, sumL. cbn. lra. }
  unfold uses. cbn [length Sum sumL]. unfold Sum, sumL. cbn [seq map fold_right nth snd Nat.eqb firstn].
  assert (H : hist_prob ex_mdp (named ex_mdp []) = 1). { unfold hist_prob. change (mdp_n ex_mdp) with 2%nat. unfold Sum, sumL. cbn [seq map fold_right]. rewrite !S0. cbn. lra. }
  rewrite H, S0. cbn [Nat.eqb]. destruct (Rlt_dec 0 1); cbn; lra.
Qed.

(** ** C101: the exploration strategy *)
Lemma computeProbas_den (h : mdp R) tr t : wf_mdp h -> nonneg_mdp h ->
  computeProbas h tr t = option_map (@sd_den R) (processWork_MDP h tr t).
Proof.
  intros W N. unfold computeProbas, processWork_MDP.
  assert (P : 0 <= proba_of (mask_last (mdp_mask h tr) (bw_alphas (mdp_n h) (mdp_ini h) (map (mdp_w h) (pairs_of tr))))).
  { rewrite mdp_ws_eq by exact W. rewrite (proba_model_mask (mdp_n h)) by (auto using mdp_ini_len; try apply lab_mask_length; apply W).
    rewrite (tot_ext_f _ _ _ (vget (mdp_mask h tr)) (df h tr)) by (intros; apply lab_mask_get; assumption).
    apply (d_P_nonneg h W [(tr, t)] N tr t). left; reflexivity. }
  set (pr := proba_of _) in *. nR. unfold Rleb, Reqb. destruct (Rle_dec pr 0) as [L|L], (Req_EM_T pr 0) as [E|E]; try lra; reflexivity.
Qed.
Lemma strategy_mats (h : mdp R) set : wf_mdp h -> nonneg_mdp h ->
  flat_map (fun r => match r with Some m => [m] | None => [] end) (map (fun st => computeProbas h (fst st) (snd st)) set) =
  map (@sd_den R) (goods (processWork_MDP h) set).
Proof.
  intros W N. unfold goods. induction set as [|[tr t] set IH]; [reflexivity|]. cbn [map flat_map fst snd]. rewrite IH, computeProbas_den by assumption.
  destruct (processWork_MDP h tr t); reflexivity.
Qed.
Definition possible_in (h : mdp R) (set : list (list string * Z)) : Prop := exists tr t, In (tr, t) set /\ 0 < mdp_trace_prob h tr.
Lemma goods_possible (h : mdp R) set : wf_mdp h -> nonneg_mdp h -> alternating_set set ->
  (goods (processWork_MDP h) set <> [] <-> possible_in h set).
Proof.
  intros W N A. split.
  - intros NE. destruct (goods (processWork_MDP h) set) as [|x l] eqn:E; [contradiction|].
    assert (I : In x (goods (processWork_MDP h) set)) by (rewrite E; left; reflexivity).
    apply In_goods in I as ([tr t] & I & Q). cbn [fst snd] in Q. exists tr, t. split; [exact I|].
    rewrite pw_mdp in Q by exact W. rewrite <- dP_path by (auto; exact (A tr t I)).
    pose proof (d_P_nonneg h W set N tr t I). destruct (Req_EM_T _ 0); [discriminate|]. lra.
  - intros (tr & t & I & P) Z. assert (J : In (dmk h tr t) (goods (processWork_MDP h) set)); [|rewrite Z in J; exact J].
    apply In_goods. exists (tr, t). split; [exact I|]. cbn [fst snd]. rewrite pw_mdp by exact W.
    rewrite <- dP_path in P by (auto; exact (A tr t I)). destruct (Req_EM_T _ 0); [lra|reflexivity].
Qed.

(** With several processes and at least one possible trace, the counts are the
    expected numbers of uses of each action in each state, given the traces. *)
Theorem C101_strategy : forall (p : nat) (h : mdp R) (set : list (list string * Z)),
  wf_mdp h -> nonneg_mdp h -> alternating_set set -> (1 < p)%nat -> possible_in h set ->
  exists mat, strategy p h set = Ok (Some mat) /\ shaped (mdp_n h) (length (mdp_act h)) mat /\
    forall s j, (s < mdp_n h)%nat -> (j < length (mdp_act h))%nat ->
      mget mat s j = set_expected (mdp_trace_prob h) (mdp_expected_visits h s (nth j (mdp_act h) EmptyString)) set.
Proof.
  intros p h set W N A Hp PO. apply (goods_possible h set W N A) in PO.
  exists (msum_all (map (@sd_den R) (goods (processWork_MDP h) set))). split; [|split].
  - unfold strategy. rewrite strategy_mats by assumption. replace (1 <? p)%nat with true by (symmetry; apply Nat.ltb_lt; exact Hp). cbn [negb andb].
    destruct (goods (processWork_MDP h) set); [contradiction|reflexivity].
  - apply (msum_all_spec _ (mdp_n h) (length (mdp_act h))).
    + intros Z. apply map_eq_nil in Z. contradiction.
    + intros v I. apply in_map_iff in I as (x & <- & I). apply In_goods in I as ([tr t] & I & Q). cbn [fst snd] in Q.
      rewrite pw_mdp in Q by exact W. destruct (Req_EM_T _ 0); [discriminate|]. injection Q as <-. apply shaped_vbuild.
  - intros s j Hs Hj. rewrite <- (dDEN_path h set W A s j Hs).
    pose proof (goods_msum (mdp_n h) set (vget (mdp_ini h)) (dW h) (df h) _ (dmk h) (d_work h W set) (d_P_nonneg h W set N) (@sd_den R) (mdp_n h) (length (mdp_act h)) PO (fun x t => shaped_vbuild _ _ _)) as Ed.
    rewrite Ed by assumption. apply psum_ext. intros x t I Px. cbn [dmk sd_den]. rewrite mget_vbuild by assumption. reflexivity.
Qed.
Print Assumptions C101_strategy.

(** Every step of a possible trace is counted once. *)
Lemma reward_total n gs x : (forall i, In i x -> (i < n)%nat) -> length x = S (length gs) ->
  Sum n (fun s => path_reward (map (fun c => on_leave s c) gs) x) = rsum gs.
Proof.
  revert x. induction gs as [|c gs IH]; intros x Hx L.
  - cbn [map path_reward]. rewrite Sum_zero. reflexivity.
  - destruct x as [|i [|i' x]]; cbn [length] in L; try lia. cbn [map path_reward]. rewrite Sum_plus, (IH (i' :: x)).
    + change (rsum (c :: gs)) with (c + rsum gs). f_equal. unfold on_leave. rewrite (Sum_ext _ _ (fun s => if Nat.eqb s i then c else 0)) by (intros k _; rewrite Nat.eqb_sym; reflexivity).
      apply (Sum_indicator_in n i (fun _ => c)). apply Hx. left; reflexivity.
    + intros k I. apply Hx. right; exact I.
    + cbn [length] in *. lia.
Qed.
Lemma paths_range n T x : In x (paths n T) -> length x = T /\ forall i, In i x -> (i < n)%nat.
Proof.
  revert x. induction T as [|T IH]; intros x; cbn [paths].
  - intros [<-|[]]. split; [reflexivity|intros i []].
  - intros I. apply in_flat_map in I as (s & Is & I). apply in_map_iff in I as (y & <- & I). apply in_seq in Is. destruct (IH y I) as [L B].
    split; [cbn; lia|]. intros i [<-|J]; [lia|apply B, J].
Qed.
Lemma visits_total (h : mdp R) a tr : alternating tr ->
  Sum (mdp_n h) (fun s => mdp_expected_visits h s a tr) = rsum (map (fun x => ind (String.eqb x a)) (odds tr)) * mdp_trace_prob h tr.
Proof.
  intros A. unfold mdp_expected_visits, mdp_expected, expected, mdp_trace_prob, trace_prob. unfold Sum at 1. rewrite sumL_swap. rewrite <- sumL_scal_l. apply sumL_ext. intros x I.
  apply paths_range in I as [L B]. rewrite map_length in L.
  rewrite sumL_scal_l. rewrite Rmult_comm. f_equal.
  rewrite <- (reward_total (mdp_n h) _ x B).
  - apply sumL_ext. intros s _. rewrite map_map. reflexivity.
  - rewrite map_length, L. apply (pairs_evens tr A).
Qed.
Theorem C101_total : forall (h : mdp R) (set : list (list string * Z)) (a : string), alternating_set set ->
  Sum (mdp_n h) (fun s => set_expected (mdp_trace_prob h) (mdp_expected_visits h s a) set) =
  sumL set (fun st => if Rlt_dec 0 (mdp_trace_prob h (fst st)) then IZR (snd st) * INR (countb String.eqb a (odds (fst st))) else 0).
Proof.
  intros h set a A. unfold set_expected. unfold Sum. rewrite sumL_swap. apply sumL_ext. intros [tr t] I. cbn [fst snd].
  destruct (Rlt_dec 0 (mdp_trace_prob h tr)) as [P|]; [|apply (Sum_zero (mdp_n h))]. rewrite sumL_scal_l. f_equal.
  change (Sum (mdp_n h) (fun s => mdp_expected_visits h s a tr / mdp_trace_prob h tr) = INR (countb String.eqb a (odds tr))).
  rewrite Sum_div_r, visits_total by exact (A tr t I). 
  replace (INR (countb String.eqb a (odds tr))) with (rsum (map (fun x => ind (String.eqb x a)) (odds tr))).
  - field. lra.
  - clear. induction (odds tr) as [|x l IH]; [reflexivity|]. cbn [map]. 
    change (rsum (ind (String.eqb x a) :: map (fun x0 => ind (String.eqb x0 a)) l)) with (ind (String.eqb x a) + rsum (map (fun x0 => ind (String.eqb x0 a)) l)). rewrite IH.
    cbn [countb]. rewrite plus_INR. f_equal. unfold ind. rewrite (String.eqb_sym x a). destruct (String.eqb a x); reflexivity.
Qed.
Print Assumptions C101_total.

(** With one process the strategy cannot be computed. *)
Theorem C101_one_process_refuted : forall (p : nat) (h : mdp R) (set : list (list string * Z)),
  wf_mdp h -> nonneg_mdp h -> alternating_set set -> (p <= 1)%nat -> (mdp_n h * length (mdp_act h) <> 1)%nat -> possible_in h set ->
  strategy p h set = Err ValueError.
Proof.
  intros p h set W N A Hp NS PO. apply (goods_possible h set W N A) in PO. unfold strategy. rewrite strategy_mats by assumption.
  replace (1 <? p)%nat with false by (symmetry; apply Nat.ltb_ge; exact Hp). replace (_ =? 1)%nat with false by (symmetry; apply Nat.eqb_neq; exact NS).
  destruct (goods (processWork_MDP h) set); [contradiction|reflexivity].
Qed.
Print Assumptions C101_one_process_refuted.
Example C101_instance : wf_mdp ex_mdp /\ nonneg_mdp ex_mdp /\ alternating_set (weighted ex_dset) /\ (mdp_n ex_mdp * length (mdp_act ex_mdp) <> 1)%nat /\
  possible_in ex_mdp (weighted ex_dset).
Proof.
  destruct C36_C37_C40_C42_instance as (W & N & _ & _ & _ & _ & A & P & _). repeat (split; [assumption|]). split; [cbn; lia|].
  exists ["x"; "a"; "y"]%string, 2%Z. split; [left; reflexivity|]. apply (P _ 2%Z). left; reflexivity.
Qed.

(** ** C102: the samples are runs of the system under learning *)
Definition suffixing {S} (sch : gsched R S) : Prop :=
  forall st draws x l, g_get sch st draws = Some (x, l) -> exists l0, draws = l0 ++ l.
Lemma suffixing_lift {S} (sch : scheduler R S) : suffixing (lift_sched sch).
Proof. intros st [|r draws] x l; cbn; [discriminate|]. intros [= _ <-]. exists [r]. reflexivity. Qed.
Lemma suffixing_active (h : mdp R) : suffixing (ActiveLearningScheduler h).
Proof.
  intros st [|r1 l1] x l; cbn [ActiveLearningScheduler g_get al_getAction]; [discriminate|].
  destruct (resolveRandom _ r1) as [s|e]; [|intros [= _ <-]; exists [r1]; reflexivity].
  destruct (al_mat st) as [mat|]; [|intros [= _ <-]; exists [r1]; reflexivity].
  destruct (at_list mat s) as [row|e]; [|intros [= _ <-]; exists [r1]; reflexivity].
  destruct l1 as [|r2 l2]; [discriminate|]. intros [= _ <-]. exists [r1; r2]. reflexivity.
Qed.
Lemma g_choose_ok {S} (m : mdp R) (sch : gsched R S) fuel st s draws a st' l : suffixing sch ->
  g_choose m sch fuel st s draws = Some (Ok (a, st'), l) -> (exists l0, draws = l0 ++ l) /\ In a (getActions m s) /\
  exists st0 draws0 l1, g_get sch st0 draws0 = Some (Ok (a, st'), l1).
Proof.
  intros SU. revert st draws. induction fuel as [|fuel IH]; intros st draws; cbn [g_choose]; [discriminate|].
  destruct (g_get sch st draws) as [[[[b st1]|e] l1]|] eqn:E; try discriminate.
  destruct (SU _ _ _ _ E) as [l0 ->]. destruct (memb String.eqb b (getActions m s)) eqn:M.
  - intros [= <- <- <-]. split; [exists l0; reflexivity|]. split; [apply memb_str, M|]. eauto.
  - intros X. destruct (IH _ _ X) as ([l2 ->] & Y & Z). split; [exists (l0 ++ l2); rewrite app_assoc; reflexivity|]. split; assumption.
Qed.
Lemma g_run_from_ok {S} (m : mdp R) (sch : gsched R S) steps st s draws tr st' l : suffixing sch -> wf_mdp m -> mdp_dist m ->
  (forall r, In r draws -> unit_draw r) -> (s < mdp_n m)%nat ->
  g_run_from m sch steps st s draws = Some (Ok (tr, st'), l) ->
  (exists l0, draws = l0 ++ l) /\ exists x, length x = steps /\ mdp_path m draws s x /\ tr = mdp_trace m s x.
Proof.
  intros SU (SH & Ll & ND & _) DM. revert st s draws tr. induction steps as [|k IH]; intros st s draws tr UD Ls; cbn [g_run_from].
  - rewrite (at_list_nth _ _ EmptyString) by lia. cbn [bind]. intros [= <- <- <-]. split; [exists []; reflexivity|]. exists []. repeat split.
  - destruct (g_choose m sch (length draws) st s draws) as [[[[a st1]|e] l1]|] eqn:E; try discriminate.
    apply (g_choose_ok _ _ _ _ _ _ _ _ _ SU) in E as ([l0 ->] & A & _).
    destruct l1 as [|r l1]; [discriminate|].
    apply getActions_In in A as (c & Lc & <- & Pc). unfold mdp_next.
    rewrite (index_of_nth String.eqb String.eqb_eq) by assumption.
    rewrite (at_list_nth (mdp_mat m) s []) by (unfold mdp_n in Ls; exact Ls). cbn [bind].
    assert (Ira : In (nth s (mdp_mat m) []) (mdp_mat m)) by (apply nth_In; exact Ls).
    destruct (SH _ Ira) as [La Lr].
    rewrite (at_list_nth _ c []) by lia. cbn [bind].
    assert (Ir : In (nth c (nth s (mdp_mat m) []) []) (nth s (mdp_mat m) [])) by (apply nth_In; lia).
    assert (DI : is_dist (nth c (nth s (mdp_mat m) []) [])).
    { destruct (DM _ _ Ira Ir) as [N [Z|O]]; [lra|split; assumption]. }
    assert (Ur : unit_draw r) by (apply UD, in_or_app; right; left; reflexivity).
    destruct (dist_selects _ r DI Ur) as (s' & Es & Ss). rewrite Es. cbn [bind].
    rewrite (at_list_nth (mdp_lab m) s EmptyString) by lia. cbn [bind].
    destruct (g_obs sch st1 (nth s (mdp_lab m) EmptyString)) as [st2|e] eqn:EO; [|discriminate].
    assert (Ls' : (s' < mdp_n m)%nat) by (destruct Ss as [L _]; rewrite Lr in L by exact Ir; exact L).
    destruct (g_run_from m sch k st2 s' l1) as [[[[tr1 st3]|e] l2]|] eqn:ER; try discriminate.
    intros [= <- -> ->]. apply IH in ER as ([l3 ->] & x & Lx & Px & ->); [|intros q I; apply UD, in_or_app; right; right; exact I|exact Ls'].
    split; [exists (l0 ++ r :: l3); rewrite <- app_assoc; reflexivity|].
    exists ((nth c (mdp_act m) EmptyString, s') :: x). split; [cbn; lia|]. split; [|reflexivity]. split.
    + exists c, r. split; [exact Lc|]. split; [reflexivity|]. split; [exact Pc|]. split; [apply in_or_app; right; left; reflexivity|exact Ss].
    + eapply mdp_path_weaken; [|exact Px]. intros q I. apply in_or_app; right; right; exact I.
Qed.

(** A run of the system: a path from an initial state, with available actions
    and possible moves. *)
Definition run_of (m : mdp R) (steps : nat) (tr : list string) : Prop :=
  exists s x draws, length x = steps /\ (s < mdp_n m)%nat /\ 0 < vecR (mdp_ini m) s /\ mdp_path m draws s x /\ tr = mdp_trace m s x.
Lemma g_run_ok {S} (m : mdp R) (sch : gsched R S) (steps : Z) st draws tr st' l : suffixing sch -> wf_mdp m -> mdp_dist m -> is_dist (mdp_ini m) ->
  (forall r, In r draws -> unit_draw r) -> g_run m sch st steps draws = Some (Ok (tr, st'), l) ->
  (exists l0, draws = l0 ++ l) /\ run_of m (Z.to_nat steps) tr.
Proof.
  intros SU W DM DI UD. unfold g_run. destruct draws as [|r draws]; [discriminate|].
  destruct (dist_selects _ r DI (UD r (or_introl eq_refl))) as (c & Ec & Sc). rewrite Ec.
  assert (Lc : (c < mdp_n m)%nat). { destruct Sc as [L _]. destruct W as (_ & _ & _ & Li & _). lia. }
  intros E. apply g_run_from_ok in E as ([l0 ->] & x & Lx & Px & ->); try assumption; [|intros q I; apply UD; right; exact I].
  split; [exists (r :: l0); reflexivity|]. exists c, x, (l0 ++ l). repeat (split; [assumption|]). split; [apply Sc|]. split; [assumption|reflexivity].
Qed.
(** A run is possible and alternates observations and actions. *)
Lemma run_of_possible (m : mdp R) steps tr : wf_mdp m -> mdp_dist m -> nonneg (mdp_ini m) -> run_of m steps tr ->
  0 < mdp_trace_prob m tr /\ length tr = (2 * steps + 1)%nat.
Proof.
  intros W DM DI (s & x & draws & Lx & Ls & Ps & Px & ->). split.
  2:{ unfold mdp_trace. cbn [length]. rewrite <- Lx. clear. induction x as [|[a s] x IH]; cbn [flat_map length app]; [reflexivity|]. cbn [fst snd]. lia. }
  unfold mdp_trace_prob. destruct (mdp_trace_parts m s x) as [-> ->].
  assert (G : forall x s, (s < mdp_n m)%nat -> mdp_path m draws s x ->
    (forall j, In j (s :: map snd x) -> (j < mdp_n m)%nat) /\
    0 < path_weight (map (act_mat m) (map fst x)) (map (is_label (mdp_lab m)) (map (fun j => nth j (mdp_lab m) EmptyString) (s :: map snd x))) (s :: map snd x)).
  { clear -W DM. induction x as [|[a s'] x IH]; intros s Ls P.
    - cbn. split; [intros j [<-|[]]; exact Ls|]. unfold is_label. rewrite String.eqb_refl. lra.
    - destruct P as [(k & r & Lk & <- & _ & _ & (L & Pk & _)) P].
      assert (Ls' : (s' < mdp_n m)%nat).
      { assert (Ira : In (nth s (mdp_mat m) []) (mdp_mat m)) by (apply nth_In; exact Ls).
        destruct W as (SH & _). destruct (SH _ Ira) as [La Lr]. rewrite Lr in L; [exact L|]. apply nth_In. lia. }
      destruct (IH s' Ls' P) as [R Wt]. split; [intros j [<-|I]; [exact Ls|apply R, I]|].
      cbn [map fst snd] in *. cbn [path_weight]. unfold is_label at 1. rewrite String.eqb_refl, Rmult_1_l.
      apply Rmult_lt_0_compat; [apply act_mat_pos; assumption|exact Wt]. }
  destruct (G x s Ls Px) as [RG WP].
  apply (trace_prob_pos _ _ _ _ (s :: map snd x)).
  - rewrite !map_length. reflexivity.
  - exact RG.
  - intros i _. apply vecR_nonneg, DI.
  - intros A i j I Li _. apply in_map_iff in I as (a & <- & _). apply Sum_nonneg. intros k Lk. destruct (String.eqb _ _); [|lra].
    assert (Ira : In (nth i (mdp_mat m) []) (mdp_mat m)) by (apply nth_In; exact Li).
    apply (vecR_nonneg (nth k (nth i (mdp_mat m) []) []) j). apply (DM _ _ Ira). apply nth_In. destruct W as (SH & _). destruct (SH _ Ira). lia.
  - intros B i I _. apply in_map_iff in I as (o & <- & _). apply is_label_nonneg.
  - discriminate.
  - exact Ps.
  - exact WP.
Qed.

Lemma tr_eqb_ok : decides_eq tr_eqb.
Proof. exact (lex_eqb_decides _ string_eqb_decides). Qed.

Section Sample.
  Variables (h sul : mdp R) (L : Z) (eg : R).
  Hypothesis W : wf_mdp sul.
  Hypothesis DM : mdp_dist sul.
  Hypothesis DI : is_dist (mdp_ini sul).
  Lemma sample_loop_spec k st acc draws ss ts l : (forall r, In r draws -> unit_draw r) -> length (fst acc) = length (snd acc) ->
    sample_loop h sul L eg k st acc draws = Some (Ok (ss, ts), l) ->
    (exists l0, draws = l0 ++ l) /\
    exists trs, length trs = k /\ (forall tr, In tr trs -> run_of sul (Z.to_nat L) tr) /\
                (ss, ts) = fold_left (setFromList_step tr_eqb) trs acc.
  Proof.
    revert st acc draws. induction k as [|k IH]; intros st acc draws UD LA; cbn [sample_loop].
    - intros [= -> <-]. split; [exists []; reflexivity|]. exists []. split; [reflexivity|]. split; [intros tr []|reflexivity].
    - destruct draws as [|r draws]; [discriminate|].
      assert (UD' : forall q, In q draws -> unit_draw q) by (intros q I; apply UD; right; exact I).
      destruct (nltb eg r).
      + destruct (g_run sul _ tt L draws) as [[[[tr u]|e] l1]|] eqn:E; try discriminate.
        apply g_run_ok in E as ([l0 ->] & RN); auto using suffixing_lift. intros X.
        apply IH in X as ([l2 ->] & trs & Lt & Rt & Et).
        * split; [exists (r :: l0 ++ l2); cbn; rewrite <- app_assoc; reflexivity|]. exists (tr :: trs). split; [cbn; lia|].
          split; [intros t [<-|I]; auto|]. cbn [fold_left]. rewrite <- gen_add_step by (auto using tr_eqb_ok). exact Et.
        * intros q I. apply UD', in_or_app; right; exact I.
        * rewrite gen_add_step by (auto using tr_eqb_ok). apply step_lengths, LA.
      + destruct (g_run sul _ st L draws) as [[[[tr u]|e] l1]|] eqn:E; try discriminate.
        apply g_run_ok in E as ([l0 ->] & RN); auto using suffixing_active. intros X.
        apply IH in X as ([l2 ->] & trs & Lt & Rt & Et).
        * split; [exists (r :: l0 ++ l2); cbn; rewrite <- app_assoc; reflexivity|]. exists (tr :: trs). split; [cbn; lia|].
          split; [intros t [<-|I]; auto|]. cbn [fold_left]. rewrite <- gen_add_step by (auto using tr_eqb_ok). exact Et.
        * intros q I. apply UD', in_or_app; right; exact I.
        * rewrite gen_add_step by (auto using tr_eqb_ok). apply step_lengths, LA.
  Qed.
End Sample.

(** Whatever the hypothesis, the strategy and the draws: a completed sample is a
    set of exactly nb_sequences runs of the system, each of the requested length,
    stored once with its number of occurrences. *)
Theorem C102_sample : forall (p : nat) (h sul : mdp R) (L : Z) (nb : nat) (traces : tset (list string)) (eg : R) draws s l,
  wf_mdp sul -> mdp_dist sul -> is_dist (mdp_ini sul) -> (forall r, In r draws -> unit_draw r) ->
  addTraces p h sul L (Z.of_nat nb) traces eg draws = Some (Ok s, l) ->
  exists trs, length trs = nb /\
    (forall tr, In tr trs -> run_of sul (Z.to_nat L) tr /\ 0 < mdp_trace_prob sul tr /\ length tr = (2 * Z.to_nat L + 1)%nat) /\
    wf_set s /\ pos_set s /\ ty s = Some 1%Z /\ (forall tr, In tr (seqs s) <-> In tr trs) /\
    (forall tr, mult tr_eqb s tr = Z.of_nat (occ tr_eqb tr trs)) /\ zsum (times s) = Z.of_nat nb.
Proof.
  intros p h sul L nb traces eg draws s l W DM DI UD. unfold addTraces. destruct (strategy p h _) as [mat|e]; [|discriminate].
  rewrite Nat2Z.id. destruct (sample_loop _ _ _ _ _ _ _ _) as [[[[ss ts]|e] l1]|] eqn:E; try discriminate. intros [= <- <-].
  apply sample_loop_spec in E as (_ & trs & Lt & Rt & Et); auto. exists trs. split; [exact Lt|]. split.
  { intros tr I. split; [apply Rt, I|]. apply run_of_possible; auto. apply DI. }
  pose proof tr_eqb_ok as D. change ((ss, ts) = setFromList tr_eqb trs) in Et.
  assert (ss = fst (setFromList tr_eqb trs) /\ ts = snd (setFromList tr_eqb trs)) as [-> ->] by (rewrite <- Et; split; reflexivity).
  split; [apply setFromList_wf, D|]. split; [exact (setFromList_times_pos _ D trs)|]. split; [reflexivity|]. split.
  { intros tr. cbn [seqs]. rewrite (setFromList_spec _ D). apply first_occ_In, D. }
  split; [intros x; apply setFromList_mult, D|]. cbn [times]. rewrite (zsum_setFromList _ D), Lt. reflexivity.
Qed.
Print Assumptions C102_sample.
(** A completed sample: one trace, explored uniformly. *)
Definition ex_draws : list R := [1/2; 1/2; 1/4; 3/4].
Lemma ex_sample_loop st : sample_loop ex_mdp ex_mdp 1 0 1 st ([], []) ex_draws = Some (Ok ([["x"; "a"; "y"]%string], [1%Z]), []).
Proof.
  unfold ex_draws. cbn [sample_loop]. replace (@nltb R RNum 0 (1/2)) with true by (symmetry; apply Rltb_true; lra).
  unfold g_run.
  rewrite (sel2 (mdp_ini ex_mdp) (1/2) 0); [|intros x [<-|[<-|[]]]; lra|lra|unfold selected, vecR; cbn; (split; [lia|lra])].
  change (Z.to_nat 1) with 1%nat. cbn [g_run_from length g_choose g_get lift_sched sch_get UniformScheduler]. unfold uniform_get.
  change (uniform_weights (K:=R) (mdp_act ex_mdp)) with [1/2; 1/2].
  rewrite (sel2 [1/2; 1/2] (1/4) 0); [|intros x [<-|[<-|[]]]; lra|lra|unfold selected, vecR; cbn; split; [lia|lra]].
  cbn [bind]. change (at_list (mdp_act ex_mdp) 0) with (@Ok string "a"%string). cbn [bind].
  replace (memb String.eqb "a"%string (@getActions R RNum ex_mdp 0)) with true.
  2:{ symmetry. apply memb_str. apply getActions_In. exists O. cbn. split; [lia|]. split; [reflexivity|lra]. }
  cbv iota beta. unfold mdp_next. change (index_of String.eqb "a"%string (mdp_act ex_mdp)) with (Some O).
  change (at_list (mdp_mat ex_mdp) 0) with (@Ok (list (list R)) [[1/2; 1/2]; [0; 1]]). cbn [bind].
  change (at_list [[1/2; 1/2]; [0; 1]] 0) with (@Ok (list R) [1/2; 1/2]). cbn [bind].
  rewrite (sel2 [1/2; 1/2] (3/4) 1); [|intros x [<-|[<-|[]]]; lra|lra|unfold selected, vecR; cbn; split; [lia|lra]].
  reflexivity.
Qed.
Example C102_instance : wf_mdp ex_mdp /\ mdp_dist ex_mdp /\ is_dist (mdp_ini ex_mdp) /\ (forall r, In r ex_draws -> unit_draw r) /\
  addTraces 2 ex_mdp ex_mdp 1 (Z.of_nat 1) ex_dset 0 ex_draws = Some (Ok (mkset [["x"; "a"; "y"]%string] [1%Z] (Some 1%Z)), []).
Proof.
  destruct C101_instance as (W & N & A & _ & P). split; [exact W|]. split.
  { intros ra r [<-|[<-|[]]] [<-|[<-|[]]]; (split; [intros x [<-|[<-|[]]]; lra|cbn; lra]). }
  split; [split; [intros x [<-|[<-|[]]]; lra|cbn; lra]|]. split.
  { intros r [<-|[<-|[<-|[<-|[]]]]]; unfold unit_draw; lra. }
  destruct (C101_strategy 2 ex_mdp _ W N A (le_n _) P) as (mat & E & _). unfold addTraces. unfold weighted in E. rewrite E.
  change (Z.to_nat (Z.of_nat 1)) with 1%nat. rewrite ex_sample_loop. reflexivity.
Qed.
