(** Theorems C64, C104-C106: active learning, the training set, failures, the
    learned model and the learning rate. *)
From Coq Require Import String ZArith Bool Reals List Lra Lia Arith.
From Verif Require Import Num Py SNum LSum MTools LTools SPath LPath MSet SSet LSet MModels MCtor SBW SLik MLik MBW MRun SRun LCtor LRun PRun LFB LLik LLik2 LBW LBWSet LEM LEMGen LBWLoop LBWMDP SExp PLik PBWMDP.
From Verif Require Import MActive SActive PActive PActive2.
Import ListNotations.
Local Open Scope R_scope.

(** ** Sampling raises nothing *)
Section NoErr.
  Context {St : Type} (sch : gsched R St) (sul : mdp R) (P Q : St -> Prop).
  Hypothesis SU : suffixing sch.
  Hypothesis HG : forall st draws x l, P st -> (forall r, In r draws -> unit_draw r) -> g_get sch st draws = Some (x, l) ->
    exists a st', x = Ok (a, st') /\ Q st'.
  Hypothesis HQ : forall st, Q st -> P st.
  Hypothesis HO : forall st o, Q st -> exists st', g_obs sch st o = Ok st' /\ P st'.
  Hypothesis W : wf_mdp sul.
  Hypothesis DM : mdp_dist sul.
  Lemma g_choose_no_err fuel st s draws x l : P st -> (forall r, In r draws -> unit_draw r) ->
    g_choose sul sch fuel st s draws = Some (x, l) -> exists a st', x = Ok (a, st') /\ Q st'.
  Proof.
    revert st draws. induction fuel as [|fuel IH]; intros st draws Pst UD; cbn [g_choose]; [discriminate|].
    destruct (g_get sch st draws) as [[y l1]|] eqn:E; [|discriminate]. destruct (HG _ _ _ _ Pst UD E) as (a & st' & -> & Q').
    destruct (memb String.eqb a _); [intros [= <- _]; eauto|]. apply IH; [apply HQ, Q'|].
    destruct (SU _ _ _ _ E) as [l0 ->]. intros r I. apply UD, in_or_app. right; exact I.
  Qed.
  Lemma g_run_from_no_err steps st s draws x l : P st -> (forall r, In r draws -> unit_draw r) -> (s < mdp_n sul)%nat ->
    g_run_from sul sch steps st s draws = Some (x, l) -> exists tr st', x = Ok (tr, st') /\ P st'.
  Proof.
    destruct W as (SH & Ll & ND & Li & Ni). revert st s draws x l. induction steps as [|k IH]; intros st s draws x l Pst UD Ls; cbn [g_run_from].
    - rewrite (at_list_nth _ _ EmptyString) by lia. intros [= <- _]. eauto.
    - destruct (g_choose sul sch (length draws) st s draws) as [[y l1]|] eqn:E; [|discriminate].
      destruct (g_choose_no_err _ _ _ _ _ _ Pst UD E) as (a & st1 & -> & Q1). apply (g_choose_ok sul sch) in E as ([l0 ->] & A & _); [|exact SU].
      destruct l1 as [|r l1]; [discriminate|].
      apply getActions_In in A as (c & Lc & <- & Pc). unfold mdp_next.
      rewrite (index_of_nth String.eqb String.eqb_eq) by assumption.
      rewrite (at_list_nth (mdp_mat sul) s []) by exact Ls. cbn [bind].
      assert (Ira : In (nth s (mdp_mat sul) []) (mdp_mat sul)) by (apply nth_In; exact Ls).
      destruct (SH _ Ira) as [La Lr]. rewrite (at_list_nth _ c []) by lia. cbn [bind].
      assert (Ir : In (nth c (nth s (mdp_mat sul) []) []) (nth s (mdp_mat sul) [])) by (apply nth_In; lia).
      assert (DJ : is_dist (nth c (nth s (mdp_mat sul) []) [])) by (destruct (DM _ _ Ira Ir) as [N [Z|O]]; [lra|split; assumption]).
      destruct (dist_selects _ r DJ (UD r ltac:(apply in_or_app; right; left; reflexivity))) as (s' & Es & Ss). rewrite Es. cbn [bind].
      rewrite (at_list_nth (mdp_lab sul) s EmptyString) by lia. cbn [bind].
      assert (Ls' : (s' < mdp_n sul)%nat) by (destruct Ss as [L _]; rewrite Lr in L by exact Ir; exact L).
      destruct (HO st1 (nth s (mdp_lab sul) EmptyString) Q1) as (st2 & -> & P2).
      destruct (g_run_from sul sch k st2 s' l1) as [[z l2]|] eqn:E; [|discriminate].
      assert (UD' : forall q, In q l1 -> unit_draw q) by (intros q I; apply UD, in_or_app; right; right; exact I).
      destruct (IH st2 s' l1 z l2 P2 UD' Ls' E) as (tr & st3 & -> & P3).
      intros [= <- _]. eauto.
  Qed.
End NoErr.

Lemma reset_ok (h : mdp R) mat st : wf_mdp h -> al_mat st = Some mat -> counts_ok h mat -> al_ok h (al_reset h st).
Proof.
  intros W E C. split; [exists mat; split; [exact E|exact C]|]. unfold al_reset. cbn [al_belief].
  change (vbuild (mdp_n h) (fun s => vget (mdp_ini h) s)) with (vbuild (mdp_n h) (vget (mdp_ini h))). rewrite vbuild_vget by apply W. split; [apply W|].
  apply W.
Qed.
Lemma fstep_nonneg n b w : length b = n -> nonneg b -> okw n w -> nonneg (fstep n b w).
Proof.
  intros L N OW x I. unfold fstep in I. apply (In_nth _ _ 0) in I as (s & Hs & <-). rewrite vbuild_length in Hs.
  change (0 <= vget (vbuild n (fun s' => ndot b (vbuild n (fun s0 => w s0 s')))) s). rewrite vget_vbuild by exact Hs. rewrite ndot_vbuild by exact L.
  apply Sum_nonneg. intros i Hi. apply Rmult_le_pos; [|apply OW; assumption]. apply N. apply nth_In. lia.
Qed.
Definition counting (h : mdp R) (st : al_state R) : Prop := exists mat, al_mat st = Some mat /\ counts_ok h mat.

Lemma active_run_no_err (h sul : mdp R) st L draws x l : wf_mdp h -> nonneg_mdp h -> (0 < mdp_n h)%nat -> (0 < length (mdp_act h))%nat ->
  wf_mdp sul -> mdp_dist sul -> is_dist (mdp_ini sul) -> (forall r, In r draws -> unit_draw r) -> counting h st ->
  g_run sul (ActiveLearningScheduler h) st L draws = Some (x, l) -> exists tr st', x = Ok (tr, st') /\ counting h st'.
Proof.
  intros Wh Nh Pn PJ W DM DI UD (mat & Em & C). unfold g_run. destruct draws as [|r draws]; [discriminate|].
  destruct (dist_selects _ r DI (UD r (or_introl eq_refl))) as (c & Ec & Sc). rewrite Ec.
  assert (Lc : (c < mdp_n sul)%nat). { destruct Sc as [Lc _]. destruct W as (_ & _ & _ & Li & _). lia. }
  intros E.
  destruct (g_run_from_no_err (ActiveLearningScheduler h) sul (al_ok h) (fun q => al_ok h q /\ exists k, al_last q = Some k /\ (k < length (mdp_act h))%nat)
     (suffixing_active h)) with (steps := Z.to_nat L) (st := g_reset (ActiveLearningScheduler h) st) (s := c) (draws := draws) (x := x) (l := l) as (tr & st' & -> & OK); auto.
  - intros q d y l' OK U E'. cbn [g_get ActiveLearningScheduler] in E'. destruct (get_ok h q d y l' OK Pn PJ U E') as (k & Lk & -> & _).
    eexists _, _. split; [reflexivity|]. split; [exact OK|]. exists k. split; [reflexivity|exact Lk].
  - intros q [OK _]. exact OK.
  - intros [qm qb ql] o [((m & Em' & [Cs Cn]) & Lb & Nb) (k & Ek & Lk)]. cbn [al_mat al_belief al_last] in *. subst qm ql. cbn [g_obs ActiveLearningScheduler].
    destruct (observe h qb m k o Wh Lb Nb Lk Cs) as (m' & l' & -> & SH & M). eexists. split; [reflexivity|]. split.
    + exists m'. split; [reflexivity|]. split; [exact SH|]. intros s j Hs Hj. rewrite M by exact Hs. apply Rplus_le_le_0_compat; [apply Cn; assumption|].
      destruct (Nat.eqb k j); [|lra]. destruct (Rlt_dec 0 (rsum qb)) as [P|]; [|lra]. apply Rmult_le_pos; [apply PRun.vecR_nonneg, Nb|]. left. apply Rinv_0_lt_compat, P.
    + cbn [al_belief]. split; [apply vbuild_length|]. apply fstep_nonneg; [exact Lb|exact Nb|]. apply mdp_w_nonneg; assumption.
  - cbn [g_reset ActiveLearningScheduler]. apply (reset_ok h mat); assumption.
  - intros q I. apply UD. right; exact I.
  - exists tr, st'. split; [reflexivity|]. destruct OK as [OK _]. exact OK.
Qed.
Lemma uniform_run_no_err (h sul : mdp R) L draws x l : (0 < length (mdp_act h))%nat ->
  wf_mdp sul -> mdp_dist sul -> is_dist (mdp_ini sul) -> (forall r, In r draws -> unit_draw r) ->
  g_run sul (lift_sched (UniformScheduler (K:=R) (mdp_act h))) tt L draws = Some (x, l) -> exists tr st', x = Ok (tr, st').
Proof.
  intros PJ W DM DI UD. unfold g_run. destruct draws as [|r draws]; [discriminate|].
  destruct (dist_selects _ r DI (UD r (or_introl eq_refl))) as (c & Ec & Sc). rewrite Ec.
  assert (Lc : (c < mdp_n sul)%nat). { destruct Sc as [Lc _]. destruct W as (_ & _ & _ & Li & _). lia. }
  intros E.
  destruct (g_run_from_no_err (lift_sched (UniformScheduler (K:=R) (mdp_act h))) sul (fun _ => True) (fun _ => True)
     (suffixing_lift _)) with (steps := Z.to_nat L) (st := tt) (s := c) (draws := draws) (x := x) (l := l) as (tr & st' & -> & _); auto.
  - intros [] d y l' _ U. destruct d as [|q d]; [discriminate|]. cbn [g_get lift_sched sch_get UniformScheduler]. unfold uniform_get.
    set (w := uniform_weights (mdp_act h)).
    assert (Ew : w = repeat (1 / INR (length (mdp_act h))) (length (mdp_act h))).
    { unfold w, uniform_weights. nR. rewrite <- INR_IZR_INZ. reflexivity. }
    assert (Pa : 0 < INR (length (mdp_act h))) by (apply lt_0_INR, PJ).
    assert (Dw : is_dist w).
    { rewrite Ew. split.
      - intros z J. apply repeat_spec in J. subst z. apply Rlt_le, Rdiv_lt_0_compat; lra.
      - rewrite <- (firstn_all (repeat _ _)), repeat_length, firstn_repeat_sum by lia. field. lra. }
    destruct (dist_selects w q Dw (U q (or_introl eq_refl))) as (k & Ek & [Lk _]). rewrite Ek. cbn [bind]. rewrite Ew, repeat_length in Lk.
    rewrite (at_list_nth _ _ EmptyString) by exact Lk. cbn [bind]. intros [= <- _]. eauto.
  - intros [] o _. exists tt. split; [reflexivity|exact I].
  - intros q J. apply UD. right; exact J.
  - eauto.
Qed.
Lemma sample_no_err (h sul : mdp R) L eg k st acc draws x l : wf_mdp h -> nonneg_mdp h -> (0 < mdp_n h)%nat -> (0 < length (mdp_act h))%nat ->
  wf_mdp sul -> mdp_dist sul -> is_dist (mdp_ini sul) -> (forall r, In r draws -> unit_draw r) -> counting h st ->
  sample_loop h sul L eg k st acc draws = Some (x, l) -> exists acc', x = Ok acc'.
Proof.
  intros Wh Nh Pn PJ W DM DI. revert st acc draws. induction k as [|k IH]; intros st acc draws UD C; cbn [sample_loop].
  - intros [= <- _]. eauto.
  - destruct draws as [|r draws]; [discriminate|]. assert (UD' : forall q, In q draws -> unit_draw q) by (intros q I; apply UD; right; exact I).
    destruct (@nltb R RNum eg r).
    + destruct (g_run _ _ tt L draws) as [[y l1]|] eqn:E; [|discriminate].
      destruct (uniform_run_no_err h sul L draws y l1 PJ W DM DI UD' E) as (tr & [] & ->).
      apply g_run_ok in E as ([l0 ->] & _); auto; [|apply suffixing_lift]. apply IH; [|exact C]. intros q I. apply UD', in_or_app. right; exact I.
    + destruct (g_run sul (ActiveLearningScheduler h) st L draws) as [[y l1]|] eqn:E; [|discriminate].
      destruct (active_run_no_err h sul st L draws y l1 Wh Nh Pn PJ W DM DI UD' C E) as (tr & st' & -> & C').
      apply g_run_ok in E as ([l0 ->] & _); auto; [|apply suffixing_active]. apply IH; [|exact C']. intros q I. apply UD', in_or_app. right; exact I.
Qed.
Lemma visits_nonneg (h : mdp R) s a tr : wf_mdp h -> nonneg_mdp h -> 0 <= mdp_expected_visits h s a tr.
Proof.
  intros W N. unfold mdp_expected_visits, mdp_expected, expected. apply sumL_nonneg. intros x I. apply paths_range in I as [Lx Bx].
  apply Rmult_le_pos; [apply Rmult_le_pos|].
  - apply PRun.vecR_nonneg, W.
  - apply (path_weight_nonneg (mdp_n h)); [exact Bx| |].
    + intros A i j J _ _. apply in_map_iff in J as (b & <- & _). apply act_mat_nonneg, N.
    + intros B i J _. apply in_map_iff in J as (o & <- & _). apply is_label_nonneg.
  - generalize (odds tr). clear. intros os. revert x. induction os as [|o os IH]; intros [|i [|j x]]; cbn [map path_reward]; try lra.
    apply Rplus_le_le_0_compat; [|apply IH]. unfold on_leave, ind. destruct (Nat.eqb i s), (String.eqb o a); lra.
Qed.
Lemma set_visits_nonneg (h : mdp R) s a set : wf_mdp h -> nonneg_mdp h -> pos_times set ->
  0 <= set_expected (mdp_trace_prob h) (mdp_expected_visits h s a) set.
Proof.
  intros W N T. unfold set_expected. apply sumL_nonneg. intros st I. destruct (Rlt_dec 0 _) as [P|]; [|lra].
  apply Rmult_le_pos; [apply (IZR_le 0); pose proof (T st I); lia|]. apply Rmult_le_pos; [apply visits_nonneg; assumption|]. left. apply Rinv_0_lt_compat, P.
Qed.
Lemma addTraces_no_err (p : nat) (h sul : mdp R) L nb (traces : tset (list string)) eg draws x l :
  wf_mdp h -> nonneg_mdp h -> (0 < mdp_n h)%nat -> (0 < length (mdp_act h))%nat -> wf_mdp sul -> mdp_dist sul -> is_dist (mdp_ini sul) ->
  (forall r, In r draws -> unit_draw r) -> (1 < p)%nat -> pos_times (weighted traces) -> alternating_set (weighted traces) -> possible_in h (weighted traces) ->
  addTraces p h sul L nb traces eg draws = Some (x, l) -> exists s, x = Ok s.
Proof.
  intros Wh Nh Pn PJ W DM DI UD Hp T A PO. unfold addTraces. destruct (C101_strategy p h (weighted traces) Wh Nh A Hp PO) as (mat & E & SH & M).
  unfold weighted in E. rewrite E. destruct (sample_loop _ _ _ _ _ _ _ _) as [[y l1]|] eqn:ES; [|discriminate].
  assert (X : exists acc', y = Ok acc').
  { refine (sample_no_err h sul L eg _ _ _ draws y l1 Wh Nh Pn PJ W DM DI UD _ ES).
    exists mat. split; [reflexivity|]. split; [exact SH|]. intros s j Hs Hj. rewrite M by assumption. apply set_visits_nonneg; assumption. }
  destruct X as [[ss ts] ->]. intros [= <- _]. eauto.
Qed.

(** ** The sum of two sets *)
Lemma zsum_app a b : zsum (a ++ b) = (zsum a + zsum b)%Z.
Proof. induction a as [|x a IH]; cbn [app zsum]; [reflexivity|]. rewrite IH. lia. Qed.
Lemma zsum_upd l i t : (i < length l)%nat -> zsum (upd l i (nth i l 0 + t)%Z) = (zsum l + t)%Z.
Proof. revert i. induction l as [|x l IH]; intros [|i] H; cbn [length] in H; try lia; cbn [upd zsum nth]; [lia|]. rewrite IH by lia. lia. Qed.
Lemma upd_In {A} (l : list A) i x y : In y (upd l i x) -> y = x \/ In y l.
Proof. revert i. induction l as [|z l IH]; intros [|i]; cbn; [tauto|tauto| |]; intros [H|H]; auto. destruct (IH _ H); auto. Qed.
Lemma addSet_fold_pos l ss ts : length ts = length ss -> (forall t, In t ts -> (1 <= t)%Z) -> (forall x t, In (x, t) l -> (1 <= t)%Z) ->
  let '(ss', ts') := fold_left (addSet_step tr_eqb) l (ss, ts) in
  (forall t, In t ts' -> (1 <= t)%Z) /\ zsum ts' = (zsum ts + zsum (map snd l))%Z.
Proof.
  revert ss ts. induction l as [|[x t] l IH]; intros ss ts L P Q.
  - cbn [fold_left map zsum]. split; [exact P|lia].
  - cbn [fold_left]. assert (Pt : (1 <= t)%Z) by (apply (Q x t); left; reflexivity).
    assert (Q' : forall y u, In (y, u) l -> (1 <= u)%Z) by (intros y u I; apply (Q y u); right; exact I).
    unfold addSet_step at 2. destruct (memb tr_eqb x ss) eqn:M.
    + destruct (index_of tr_eqb x ss) as [i|] eqn:E.
      * assert (Li : (i < length ts)%nat) by (rewrite L; exact (index_of_range _ _ _ _ E)).
        specialize (IH ss (upd ts i (nth i ts 0 + t)%Z)). destruct (fold_left _ l _) as [ss' ts'].
        destruct IH as [A B]; [rewrite LCtor.upd_length; exact L| |exact Q'|].
        { intros u I. apply upd_In in I as [->|I]; [|apply P, I]. pose proof (P (nth i ts 0%Z) (nth_In _ _ Li)). lia. }
        split; [exact A|]. rewrite B, zsum_upd by exact Li. cbn [map snd zsum]. lia.
      * exfalso. revert M E. clear -t. induction ss as [|y ss IH]; unfold memb; cbn [existsb index_of]; [discriminate|].
        destruct (tr_eqb x y) eqn:Q; [discriminate|]. cbn [orb]. destruct (index_of tr_eqb x ss); [discriminate|]. intros M _. exact (IH M eq_refl).
    + specialize (IH (ss ++ [x]) (ts ++ [t])). destruct (fold_left _ l _) as [ss' ts'].
      destruct IH as [A B]; [rewrite !app_length; cbn [length]; lia| |exact Q'|].
      { intros u I. apply in_app_or in I as [I|[<-|[]]]; [apply P, I|exact Pt]. }
      split; [exact A|]. rewrite B, zsum_app. cbn [map snd zsum]. lia.
Qed.
Lemma addSet_full s1 s2 : wf_set s1 -> pos_set s1 -> length (times s2) = length (seqs s2) -> pos_set s2 -> ty s1 = ty s2 ->
  exists s, addSet tr_eqb s1 s2 = Ok s /\ wf_set s /\ pos_set s /\ ty s = ty s1 /\
    (exists tl, seqs s = seqs s1 ++ tl) /\
    (forall x, In x (seqs s) <-> In x (seqs s1) \/ In x (seqs s2)) /\
    (forall x, mult tr_eqb s x = (mult tr_eqb s1 x + mult tr_eqb s2 x)%Z) /\
    zsum (times s) = (zsum (times s1) + zsum (times s2))%Z.
Proof.
  intros W1 P1 L2 P2 T. destruct (addSet_spec tr_eqb tr_eqb_ok s1 s2 W1 L2 T) as (s & E & W & Ty & Pre & In' & M).
  exists s. split; [exact E|]. split; [exact W|].
  assert (X : pos_set s /\ zsum (times s) = (zsum (times s1) + zsum (times s2))%Z).
  { unfold addSet in E. destruct (negb _); [discriminate|].
    pose proof (addSet_fold_pos (combine (seqs s2) (times s2)) (seqs s1) (times s1) (proj1 W1) P1) as F.
    destruct (fold_left _ _ _) as [ss ts]. injection E as <-. destruct F as [A B].
    - intros x t I. apply in_combine_r in I. apply P2, I.
    - split; [exact A|]. cbn [times]. rewrite B, map_snd_combine by exact L2. reflexivity. }
  destruct X as [Ps Zs]. repeat (split; [assumption|]). assumption.
Qed.

(** ** One fit *)
Lemma bw_loop_total {M} (round : M -> res (M * R)) (eps : R) (I : M -> Prop) :
  (forall m, I m -> exists m' ll, round m = Ok (m', ll) /\ I m') ->
  forall fuel prev c m, I m -> exists m' c' ll b, bw_loop round eps fuel prev c m = Ok (m', c', ll, b).
Proof.
  intros H. induction fuel as [|fuel IH]; intros prev c m Im; cbn [bw_loop]; [eauto|].
  destruct (H m Im) as (m' & ll & -> & Im'). cbn [bind]. destruct (match prev with None => false | Some p => _ end); [eauto|]. apply IH, Im'.
Qed.

(** A usable hypothesis: nonnegative entries, every row of total 0 (action not
    available) or 1. *)
Definition hyp_ok (h : mdp R) : Prop :=
  wf_mdp h /\ nonneg_mdp h /\ mdp_rows (fun x => x = 0 \/ x = 1) h /\ (0 < mdp_n h)%nat /\ (0 < length (mdp_act h))%nat.
(** A usable training set of MDP traces. *)
Definition traces_ok (s : tset (list string)) : Prop :=
  wf_set s /\ pos_set s /\ ty s = Some 1%Z /\ (forall tr, In tr (seqs s) -> alternating tr).
(** A usable system under learning. *)
Definition sul_ok (sul : mdp R) : Prop := wf_mdp sul /\ mdp_dist sul /\ is_dist (mdp_ini sul).

Lemma traces_weighted s : wf_set s -> pos_set s -> (forall tr, In tr (seqs s) -> alternating tr) -> pos_times (weighted s) /\ alternating_set (weighted s).
Proof.
  intros W P A. split.
  - intros [tr t] I. apply in_combine_r in I. pose proof (P t I). cbn. lia.
  - intros tr t I. apply in_combine_l in I. apply A, I.
Qed.
Lemma fit_keeps (p fuel : nat) (eps : R) (m m' : mdp R) s c ll b : hyp_ok m -> wf_set s -> pos_set s ->
  bw_loop (round_MDP p (weighted s)) eps fuel None 0 m = Ok (m', c, ll, b) -> hyp_ok m' /\ same_frame m m'.
Proof.
  intros (W & N & Rw & Pn & PJ) Ws Ps E.
  destruct (C36_mdp_learning_stochastic m m' p fuel c (weighted s) eps ll b W N Rw) with (2 := E) as (W' & N' & F & R' & _).
  { intros [tr t] I. apply in_combine_r in I. pose proof (Ps t I). cbn. lia. }
  split; [|exact F]. destruct F as (F1 & F2 & F3 & _). split; [exact W'|]. split; [exact N'|]. split; [exact R'|]. rewrite F1, F3. split; assumption.
Qed.
Lemma rows_sub m : mdp_rows (fun x => x = 0 \/ x = 1) m -> mdp_rows (fun x => x <= 1) m.
Proof. intros H s j Hs Hj. destruct (H s j Hs Hj) as [-> | ->]; lra. Qed.
Lemma fit_improves (p fuel : nat) (eps : R) (m m' : mdp R) s c ll b : hyp_ok m -> wf_set s -> pos_set s -> (forall tr, In tr (seqs s) -> alternating tr) ->
  bw_loop (round_MDP p (weighted s)) eps fuel None 0 m = Ok (m', c, ll, b) ->
  set_ll (mdp_trace_prob m) (weighted s) <= set_ll (mdp_trace_prob m') (weighted s) /\
  forall tr, In tr (seqs s) -> (0 < mdp_trace_prob m tr <-> 0 < mdp_trace_prob m' tr).
Proof.
  intros (W & N & Rw & _) Ws Ps A E. destruct (traces_weighted s Ws Ps A) as [T AS].
  apply (bw_loop_rel _ _ (fun x => mdp_ok x /\ mdp_rows (fun v => v <= 1) x)
     (fun x y => set_ll (mdp_trace_prob x) (weighted s) <= set_ll (mdp_trace_prob y) (weighted s) /\
                 forall tr, In tr (seqs s) -> (0 < mdp_trace_prob x tr <-> 0 < mdp_trace_prob y tr))) in E.
  - apply E.
  - intros x. split; [lra|tauto].
  - intros x y z [A1 B1] [A2 B2]. split; [lra|]. intros tr I. rewrite (B1 tr I). apply B2, I.
  - intros x y l [[Wx Nx] Sx] Er. destruct (C40_mdp_round_likelihood x y p (weighted s) l Wx Nx Sx T AS Er) as (_ & Le & Pos).
    split; [exact (mdp_round_sub x (weighted s) p y l (conj Wx Nx) Sx T Er)|]. split; [exact Le|].
    intros tr I. apply (In_nth _ _ []) in I as (i & Hi & <-). apply (Pos _ (nth i (times s) 0%Z)).
    unfold weighted. rewrite <- combine_nth by (symmetry; apply Ws). apply nth_In. rewrite combine_length, (proj1 Ws). lia.
  - split; [split; assumption|apply rows_sub, Rw].
Qed.
Lemma fit_total (p fuel : nat) (eps : R) (m : mdp R) s : hyp_ok m -> traces_ok s -> (1 < p)%nat -> possible_in m (weighted s) ->
  exists m' c ll b, bw_loop (round_MDP p (weighted s)) eps fuel None 0 m = Ok (m', c, ll, b).
Proof.
  intros (W & N & Rw & _) (Ws & Ps & _ & A) Hp PO. destruct (traces_weighted s Ws Ps A) as [T AS].
  apply (bw_loop_total _ _ (fun x => (mdp_ok x /\ mdp_rows (fun v => v <= 1) x) /\ possible_in x (weighted s))).
  - intros x [[[Wx Nx] Sx] Px]. destruct (round_mdp_succeeds x (weighted s) p (conj Wx Nx) AS Px (or_introl Hp)) as (y & l & Er).
    exists y, l. split; [exact Er|]. split; [exact (mdp_round_sub x (weighted s) p y l (conj Wx Nx) Sx T Er)|].
    destruct (C40_mdp_round_likelihood x y p (weighted s) l Wx Nx Sx T AS Er) as (_ & _ & Pos). destruct Px as (tr & t & I & P). exists tr, t. split; [exact I|]. apply (Pos tr t I), P.
  - split; [split; [split; assumption|apply rows_sub, Rw]|exact PO].
Qed.

(** ** One iteration *)
Lemma mix_same (lr : R) (a : list (list (list R))) : mix_matrix lr a a = a.
Proof.
  unfold mix_matrix. nR. assert (Z1 : forall A (f : A -> A -> A) (l : list A), (forall x, f x x = x) -> zipwith f l l = l).
  { intros A f l H. induction l as [|x l IH]; [reflexivity|]. cbn [zipwith]. rewrite IH, H. reflexivity. }
  apply Z1. intros m. apply Z1. intros r. apply Z1. intros x. ring.
Qed.
Lemma set_matrix_same {K} (m : mdp K) : set_matrix m (mdp_mat m) = m.
Proof. destruct m. reflexivity. Qed.
Lemma upd_upd {A} (l : list A) i x y : upd (upd l i x) i y = upd l i y.
Proof. revert i. induction l as [|z l IH]; intros [|i]; cbn; [reflexivity..|]. rewrite IH. reflexivity. Qed.
Lemma upd_self {A} (l : list A) i d : upd l i (nth i l d) = l.
Proof. revert i. induction l as [|z l IH]; intros [|i]; cbn; [reflexivity..|]. rewrite IH. reflexivity. Qed.
Lemma deref_upd {K} `{Num K} (hp : list (mdp K)) l m : (l < length hp)%nat -> deref (upd hp l m) l = m.
Proof. intros L. unfold deref. rewrite LCtor.upd_nth by exact L. rewrite Nat.eqb_refl. reflexivity. Qed.
Lemma merge_self (hp : list (mdp R)) l lr : mergeModels hp l l lr = hp.
Proof. unfold mergeModels. rewrite mix_same, set_matrix_same. unfold deref. apply upd_self. Qed.

(** The set an iteration learns from. *)
Definition learned_from (lr : rate R) (sample total' : tset (list string)) : tset (list string) :=
  if rate_is_zero lr then total' else sample.
(** Either the sampling, the sum of the sets or the fit fails, or the model is
    exactly the result of the fit: the learning rate does not appear. *)
Lemma active_iter_spec p fuel eps sul lr L nb eg st draws x l :
  active_iter p fuel eps sul lr L nb eg st draws = Some (x, l) ->
  exists y, addTraces p (deref (heap st) (self_h st)) sul L nb (total st) eg draws = Some (y, l) /\
  match y with
  | Err e => x = Err e
  | Ok sample =>
    match addSet tr_eqb (total st) sample with
    | Err e => x = Err e
    | Ok total' =>
      match bw_loop (round_MDP p (weighted (learned_from lr sample total'))) eps fuel None 0 (deref (heap st) (self_h st)) with
      | Err e => x = Err e
      | Ok (m', c, ll, b) => b = true /\ x = Ok (mkA (upd (heap st) (self_h st) m') (self_h st) total' (rounds st + c))
      end
    end
  end.
Proof.
  unfold active_iter. destruct (addTraces _ _ _ _ _ _ _ _) as [[[sample|e] l1]|] eqn:EA; [| |discriminate].
  2:{ intros [= <- <-]. eexists; split; [reflexivity|reflexivity]. }
  destruct (addSet tr_eqb (total st) sample) as [total'|e] eqn:ES; [|intros [= <- <-]; eexists; split; [reflexivity|]; cbn; rewrite ES; reflexivity].
  unfold learned_from. destruct (rate_is_zero lr) eqn:EZ.
  - unfold bw_fit. fold (weighted total'). destruct (bw_loop _ _ _ _ _ _) as [[[[m' c] ll] b]|e] eqn:EB.
    + destruct b; [|discriminate]. intros [= <- <-]. eexists; split; [reflexivity|]. cbn. rewrite ES, EB. split; reflexivity.
    + intros [= <- <-]. eexists; split; [reflexivity|]. cbn. rewrite ES, EB. reflexivity.
  - unfold bw_fit. fold (weighted sample). destruct (bw_loop _ _ _ _ _ _) as [[[[m' c] ll] b]|e] eqn:EB.
    + destruct b; [|discriminate]. rewrite merge_self. intros [= <- <-]. eexists; split; [reflexivity|]. cbn. rewrite ES, EB. split; reflexivity.
    + intros [= <- <-]. eexists; split; [reflexivity|]. cbn. rewrite ES, EB. reflexivity.
Qed.
Lemma addTraces_suffix p (h sul : mdp R) L nb traces eg draws s l : sul_ok sul -> (forall r, In r draws -> unit_draw r) ->
  addTraces p h sul L nb traces eg draws = Some (Ok s, l) -> exists l0, draws = l0 ++ l.
Proof.
  intros (W & DM & DI) UD. unfold addTraces. destruct (strategy p h _) as [mat|e]; [|discriminate].
  destruct (sample_loop _ _ _ _ _ _ _ _) as [[[[ss ts]|e] l1]|] eqn:E; try discriminate. intros [= _ <-].
  apply sample_loop_spec in E as (A & _); auto.
Qed.

(** The state between two iterations: a usable hypothesis and a usable set. *)
Definition started (st : astate R) : Prop :=
  (self_h st < length (heap st))%nat /\ hyp_ok (deref (heap st) (self_h st)) /\ traces_ok (total st).
Definition hypothesis (st : astate R) : mdp R := deref (heap st) (self_h st).

(** [trs]: the runs sampled. *)
Definition extended (sul : mdp R) (L : Z) (n : nat) (s s' : tset (list string)) : Prop :=
  exists trs, length trs = n /\ (forall tr, In tr trs -> run_of sul (Z.to_nat L) tr) /\
    (exists tl, seqs s' = seqs s ++ tl) /\
    (forall tr, mult tr_eqb s' tr = (mult tr_eqb s tr + Z.of_nat (occ tr_eqb tr trs))%Z) /\
    zsum (times s') = (zsum (times s) + Z.of_nat n)%Z.

Lemma iter_ok p fuel eps sul lr L (nb : nat) eg st draws st' l : sul_ok sul -> started st -> (forall r, In r draws -> unit_draw r) ->
  active_iter p fuel eps sul lr L (Z.of_nat nb) eg st draws = Some (Ok st', l) ->
  (exists l0, draws = l0 ++ l) /\ started st' /\ same_frame (hypothesis st) (hypothesis st') /\ extended sul L nb (total st) (total st') /\
  (rate_is_zero lr = true -> set_ll (mdp_trace_prob (hypothesis st)) (weighted (total st')) <= set_ll (mdp_trace_prob (hypothesis st')) (weighted (total st'))) /\
  (rate_is_zero lr = true -> forall tr, In tr (seqs (total st')) -> (0 < mdp_trace_prob (hypothesis st) tr <-> 0 < mdp_trace_prob (hypothesis st') tr)) /\
  exists sample m' c ll, addTraces p (hypothesis st) sul L (Z.of_nat nb) (total st) eg draws = Some (Ok sample, l) /\
    addSet tr_eqb (total st) sample = Ok (total st') /\
    bw_loop (round_MDP p (weighted (learned_from lr sample (total st')))) eps fuel None 0 (hypothesis st) = Ok (m', c, ll, true) /\
    hypothesis st' = m'.
Proof.
  intros SUL (Lh & HO & (Ws & Ps & Ty & Al)) UD E. destruct (active_iter_spec _ _ _ _ _ _ _ _ _ _ _ _ E) as ([sample|e] & EA & H); [|discriminate].
  destruct SUL as (W & DM & DI). destruct (C102_sample p _ sul L nb _ eg draws sample l W DM DI UD EA) as (trs & Lt & Rt & Wsm & Psm & Tysm & Ism & Msm & Zsm).
  destruct (addSet_full (total st) sample Ws Ps (proj1 Wsm) Psm ltac:(congruence)) as (total' & ES & W' & P' & Ty' & Pre & In' & M' & Z').
  rewrite ES in H. destruct (bw_loop _ _ _ _ _ _) as [[[[m' c] ll] b]|e] eqn:EB; [|discriminate]. destruct H as [-> [= ->]].
  assert (As : forall tr, In tr (seqs sample) -> alternating tr).
  { intros tr I. apply Ism in I. destruct (Rt tr I) as (_ & _ & Ltr). unfold alternating. rewrite Ltr. rewrite Nat.odd_add, Nat.odd_mul. reflexivity. }
  assert (At : forall tr, In tr (seqs total') -> alternating tr) by (intros tr I; apply In' in I as [I|I]; auto).
  assert (Wl : wf_set (learned_from lr sample total') /\ pos_set (learned_from lr sample total')) by (unfold learned_from; destruct (rate_is_zero lr); split; assumption).
  destruct (fit_keeps p fuel eps _ m' _ c ll true HO (proj1 Wl) (proj2 Wl) EB) as [HO' F].
  split; [exact (addTraces_suffix _ _ _ _ _ _ _ _ _ _ (conj W (conj DM DI)) UD EA)|].
  unfold started, hypothesis. cbn [heap self_h total]. rewrite !deref_upd by exact Lh. rewrite LCtor.upd_length.
  split. { split; [exact Lh|]. split; [exact HO'|]. split; [exact W'|]. split; [exact P'|]. split; [congruence|exact At]. }
  split; [exact F|]. split.
  { exists trs. split; [exact Lt|]. split; [intros tr I; apply (Rt tr I)|]. split; [exact Pre|]. split; [intros tr; rewrite M', Msm; reflexivity|]. rewrite Z', Zsm. reflexivity. }
  split. { intros Zr. unfold learned_from in EB. rewrite Zr in EB. apply (fit_improves p fuel eps _ m' total' c ll true HO W' P' At EB). }
  split. { intros Zr. unfold learned_from in EB. rewrite Zr in EB. apply (fit_improves p fuel eps _ m' total' c ll true HO W' P' At EB). }
  exists sample, m', c, ll. repeat (split; [assumption|]). reflexivity.
Qed.

(** ** C104 and C106: all iterations *)
Lemma extended_trans sul L a b s1 s2 s3 : extended sul L a s1 s2 -> extended sul L b s2 s3 -> extended sul L (a + b) s1 s3.
Proof.
  intros (t1 & L1 & R1 & [p1 P1] & M1 & Z1) (t2 & L2 & R2 & [p2 P2] & M2 & Z2). exists (t1 ++ t2). split; [rewrite app_length; lia|].
  split; [intros tr I; apply in_app_or in I as [I|I]; auto|]. split; [exists (p1 ++ p2); rewrite P2, P1, app_assoc; reflexivity|].
  split; [|rewrite Z2, Z1; lia]. intros tr. rewrite M2, M1.
  assert (O : forall x y, occ tr_eqb tr (x ++ y) = (occ tr_eqb tr x + occ tr_eqb tr y)%nat).
  { intros x y. unfold occ. rewrite filter_app, app_length. reflexivity. }
  rewrite O. lia.
Qed.
Lemma frame_refl m : same_frame m m.
Proof. repeat split. Qed.
Lemma frame_trans a b c : same_frame a b -> same_frame b c -> same_frame a c.
Proof. unfold same_frame. intros (A1 & A2 & A3 & A4 & A5) (B1 & B2 & B3 & B4 & B5). repeat split; congruence. Qed.

(** Whatever the rate, the strategy and the draws: after any number of iterations
    the model is a valid MDP with the labels, actions and initial distribution of
    the first one, and the set of traces is the caller's set plus exactly
    [nb_sequences] runs of the system per iteration. *)
Theorem C106_active_learning : forall (p fuel : nat) (eps : R) (sul : mdp R) (lr : rate R) (L : Z) (nb : nat) (eg : R) (iterations : nat) st draws st' l,
  sul_ok sul -> started st -> (forall r, In r draws -> unit_draw r) ->
  active_loop p fuel eps sul lr L (Z.of_nat nb) eg iterations st draws = Some (Ok st', l) ->
  hyp_ok (hypothesis st') /\ same_frame (hypothesis st) (hypothesis st') /\ traces_ok (total st') /\
  extended sul L (iterations * nb) (total st) (total st').
Proof.
  intros p fuel eps sul lr L nb eg k st draws st' l SUL S0 UD E.
  assert (G : started st' /\ same_frame (hypothesis st) (hypothesis st') /\ extended sul L (k * nb) (total st) (total st')).
  { revert st draws S0 UD E. induction k as [|k IH]; intros st draws S0 UD; cbn [active_loop].
    - intros [= -> _]. split; [exact S0|]. split; [apply frame_refl|]. exists []. split; [reflexivity|]. split; [intros tr []|]. split; [exists []; symmetry; apply app_nil_r|]. split; [intros tr; cbn; lia|cbn; lia].
    - destruct (active_iter _ _ _ _ _ _ _ _ _ _) as [[[st1|e] l1]|] eqn:E; try discriminate.
      destruct (iter_ok _ _ _ _ _ _ _ _ _ _ _ _ SUL S0 UD E) as ([l0 ->] & S1 & F1 & X1 & _). intros E2.
      destruct (IH st1 l1 S1 ltac:(intros r I; apply UD, in_or_app; right; exact I) E2) as (S2 & F2 & X2).
      split; [exact S2|]. split; [exact (frame_trans _ _ _ F1 F2)|]. exact (extended_trans _ _ _ _ _ _ _ X1 X2). }
  destruct G as ((_ & HO & TO) & F & X). repeat (split; [assumption|]). assumption.
Qed.
Print Assumptions C106_active_learning.

(** Learning rate 0: no iteration decreases the likelihood of the traces seen so
    far, and none makes a possible trace impossible. *)
Theorem C106_iteration_improves : forall (p fuel : nat) (eps : R) (sul : mdp R) (L : Z) (nb : nat) (eg : R) st draws st' l,
  sul_ok sul -> started st -> (forall r, In r draws -> unit_draw r) ->
  active_iter p fuel eps sul (Rate 0) L (Z.of_nat nb) eg st draws = Some (Ok st', l) ->
  set_ll (mdp_trace_prob (hypothesis st)) (weighted (total st')) <= set_ll (mdp_trace_prob (hypothesis st')) (weighted (total st')) /\
  forall tr, In tr (seqs (total st')) -> (0 < mdp_trace_prob (hypothesis st) tr <-> 0 < mdp_trace_prob (hypothesis st') tr).
Proof.
  intros p fuel eps sul L nb eg st draws st' l SUL S0 UD E. destruct (iter_ok _ _ _ _ _ _ _ _ _ _ _ _ SUL S0 UD E) as (_ & _ & _ & _ & A & B & _).
  assert (Z : @rate_is_zero R RNum (Rate 0) = true). { unfold rate_is_zero. nR. unfold Reqb. destruct (Req_EM_T 0 0); [reflexivity|congruence]. }
  split; [apply A, Z|apply B, Z].
Qed.
Print Assumptions C106_iteration_improves.

(** ** C105: no exception *)
(** Learning rate 0, several processes, a first trace that the hypothesis makes
    possible: no iteration raises. *)
Theorem C105_no_exception : forall (p fuel : nat) (eps : R) (sul : mdp R) (L : Z) (nb : nat) (eg : R) (iterations : nat) st draws x l,
  sul_ok sul -> started st -> (forall r, In r draws -> unit_draw r) -> (1 < p)%nat -> possible_in (hypothesis st) (weighted (total st)) ->
  active_loop p fuel eps sul (Rate 0) L (Z.of_nat nb) eg iterations st draws = Some (x, l) -> exists st', x = Ok st'.
Proof.
  intros p fuel eps sul L nb eg k st draws x l SUL S0 UD Hp. revert st draws S0 UD. induction k as [|k IH]; intros st draws S0 UD PO; cbn [active_loop].
  - intros [= <- _]. eauto.
  - destruct (active_iter _ _ _ _ _ _ _ _ _ _) as [[y l1]|] eqn:E; [|discriminate].
    assert (Z : @rate_is_zero R RNum (Rate 0) = true). { unfold rate_is_zero. nR. unfold Reqb. destruct (Req_EM_T 0 0); [reflexivity|congruence]. }
    assert (Y : exists st1, y = Ok st1).
    { destruct S0 as (Lh & HO & (Ws & Ps & Ty & Al)). destruct (traces_weighted _ Ws Ps Al) as [T AS]. pose proof HO as (Wh & Nh & Rh & Pn & PJ). destruct SUL as (W & DM & DI).
      destruct (active_iter_spec _ _ _ _ _ _ _ _ _ _ _ _ E) as (z & EA & H).
      destruct (addTraces_no_err p _ sul L (Z.of_nat nb) (total st) eg draws z l1 Wh Nh Pn PJ W DM DI UD Hp T AS PO EA) as [sample ->].
      destruct (C102_sample p _ sul L nb _ eg draws sample l1 W DM DI UD EA) as (trs & Lt & Rt & Wsm & Psm & Tysm & Ism & Msm & Zsm).
      destruct (addSet_full (total st) sample Ws Ps (proj1 Wsm) Psm ltac:(congruence)) as (total' & ES & W' & P' & Ty' & Pre & In' & M' & Z').
      rewrite ES in H. unfold learned_from in H. rewrite Z in H.
      assert (At : forall tr, In tr (seqs total') -> alternating tr).
      { intros tr I. apply In' in I as [I|I]; [auto|]. apply Ism in I. destruct (Rt tr I) as (_ & _ & Ltr). unfold alternating. rewrite Ltr. rewrite Nat.odd_add, Nat.odd_mul. reflexivity. }
      destruct (fit_total p fuel eps (deref (heap st) (self_h st)) total' HO) as (m' & c & ll & b & EB); [repeat (split; [first [assumption|congruence]|]); assumption|exact Hp| |].
      { destruct PO as (tr & t & I & P). apply in_combine_l in I. assert (J : In tr (seqs total')) by (apply In'; left; exact I).
        apply (In_nth _ _ []) in J as (i & Hi & <-). exists (nth i (seqs total') []), (nth i (times total') 0%Z). split; [|exact P].
        unfold weighted. rewrite <- combine_nth by (symmetry; apply W'). apply nth_In. rewrite combine_length, (proj1 W'). lia. }
      rewrite EB in H. destruct H as [_ ->]. eauto. }
    destruct Y as [st1 ->]. destruct (iter_ok _ _ _ _ _ _ _ _ _ _ _ _ SUL S0 UD E) as ([l0 ->] & S1 & F1 & X1 & _ & PP & _).
    apply IH; [exact S1|intros r I; apply UD, in_or_app; right; exact I|].
    destruct PO as (tr & t & I & P). apply in_combine_l in I. destruct X1 as (trs & _ & _ & [tl Pre] & _).
    assert (J : In tr (seqs (total st1))) by (rewrite Pre; apply in_or_app; left; exact I). pose proof (proj1 (PP Z tr J) P) as P1.
    apply (In_nth _ _ []) in J as (i & Hi & <-). exists (nth i (seqs (total st1)) []), (nth i (times (total st1)) 0%Z). split; [|exact P1].
    destruct S1 as (_ & _ & (W1 & _)). unfold weighted. rewrite <- combine_nth by (symmetry; apply W1). apply nth_In. rewrite combine_length, (proj1 W1). lia.
Qed.
Print Assumptions C105_no_exception.

(** Where fit does raise: with the default arguments and no stormpy; with a list
    as training set; with one process. *)
Theorem C105_fit_refuted : forall (fuel max_it : nat) (eps : R) (sul : mdp R) (lr : rate R) (iterations nb : Z) (sl : option Z) (eg : R) (h0 : mdp R) draws,
  (1 <= iterations)%Z ->
  (forall p t, active_fit false true false p fuel max_it eps sul lr iterations nb sl eg t h0 draws = Some (Err AttributeError, draws)) /\
  (forall p traces, let '(ss, ts) := setFromList tr_eqb traces in
     (exists r, bw_loop (round_MDP p (combine ss ts)) eps max_it None 0 h0 = Ok r) ->
     active_fit false false false p fuel max_it eps sul lr iterations nb sl eg (AList traces) h0 draws = Some (Err AttributeError, draws)) /\
  (forall p s h1 c ll b, (p <= 1)%nat -> hyp_ok h0 -> (mdp_n h0 * length (mdp_act h0) <> 1)%nat -> traces_ok s -> possible_in h0 (weighted s) ->
     bw_loop (round_MDP p (weighted s)) eps max_it None 0 h0 = Ok (h1, c, ll, b) ->
     active_fit false false false p fuel max_it eps sul lr iterations nb sl eg (ASet s) h0 draws = Some (Err ValueError, draws)).
Proof.
  intros fuel max_it eps sul lr its nb sl eg h0 draws Hi. split; [reflexivity|]. split.
  - intros p traces. destruct (setFromList tr_eqb traces) as [ss ts] eqn:E. intros ([[[h1 c] ll] b] & EB). unfold active_fit. cbn [andb negb]. unfold atraining_set. rewrite E. cbn [seqs times].
    rewrite EB. destruct sl; [|reflexivity]. replace (its <=? 0)%Z with false by (symmetry; apply Z.leb_gt; lia). reflexivity.
  - intros p s h1 c ll b Hp HO NS TO PO EB. pose proof TO as (Ws & Ps & Ty & Al).
    unfold active_fit. cbn [andb negb atraining_set]. fold (weighted s). rewrite EB.
    destruct (fit_keeps p max_it eps h0 h1 s c ll b HO Ws Ps EB) as [HO1 F].
    destruct (fit_improves p max_it eps h0 h1 s c ll b HO Ws Ps Al EB) as [_ Pos].
    assert (PO1 : possible_in h1 (weighted s)). { destruct PO as (tr & t & I & P). exists tr, t. split; [exact I|]. apply Pos; [apply in_combine_l in I; exact I|exact P]. }
    assert (SE : strategy p h1 (weighted s) = Err ValueError).
    { apply C101_one_process_refuted; try assumption; try apply HO1; [apply (traces_weighted s Ws Ps Al)|]. destruct F as (F1 & _ & F3 & _). rewrite F1, F3. exact NS. }
    assert (NE : seqs s <> []). { destruct PO as (tr & t & I & _). apply in_combine_l in I. intros E. rewrite E in I. exact I. }
    assert (G : forall LL, active_loop p fuel eps sul lr LL nb eg (Z.to_nat its) (mkA [h1] 0 s c) draws = Some (Err ValueError, draws)).
    { intros LL. destruct (Z.to_nat its) as [|k] eqn:Ek; [lia|]. cbn [active_loop]. unfold active_iter, addTraces. cbn [heap self_h total deref nth]. fold (weighted s). unfold deref. cbn [nth]. rewrite SE. reflexivity. }
    destruct sl as [LL|]; [apply G|]. destruct (seqs s) eqn:E; [contradiction|]. apply G.
Qed.
Print Assumptions C105_fit_refuted.

(** The same through fit: the object given by the caller as training set is
    itself extended, by all the runs sampled. *)
Theorem C104_training_set : forall (stormpy so vs : bool) (p fuel max_it : nat) (eps : R) (sul : mdp R) (lr : rate R) (iterations nb : nat) (sl : option Z) (eg : R)
    (s : tset (list string)) (h0 : mdp R) draws st' l,
  sul_ok sul -> hyp_ok h0 -> traces_ok s -> (forall r, In r draws -> unit_draw r) ->
  active_fit stormpy so vs p fuel max_it eps sul lr (Z.of_nat iterations) (Z.of_nat nb) sl eg (ASet s) h0 draws = Some (Ok st', l) ->
  hyp_ok (hypothesis st') /\ same_frame h0 (hypothesis st') /\ traces_ok (total st') /\
  exists L, (match sl with Some z => L = z | None => L = Z.of_nat (Nat.div2 (length (hd [] (seqs s)))) end) /\
    extended sul L (iterations * nb) s (total st').
Proof.
  intros sto so vs p fuel mx eps sul lr its nb sl eg s h0 draws st' l SUL HO TO UD. unfold active_fit. destruct (_ && _ && _)%bool; [discriminate|]. cbn [atraining_set]. fold (weighted s).
  destruct (bw_loop _ _ _ _ _ _) as [[[[h1 c] ll] b]|e] eqn:EB; [|discriminate]. pose proof TO as (Ws & Ps & _).
  destruct (fit_keeps p mx eps h0 h1 s c ll b HO Ws Ps EB) as [HO1 F].
  assert (S1 : started (mkA [h1] 0 s c)) by (split; [cbn; lia|]; split; [exact HO1|exact TO]).
  assert (G : forall LL, active_loop p fuel eps sul lr LL (Z.of_nat nb) eg (Z.to_nat (Z.of_nat its)) (mkA [h1] 0 s c) draws = Some (Ok st', l) ->
     hyp_ok (hypothesis st') /\ same_frame h0 (hypothesis st') /\ traces_ok (total st') /\ extended sul LL (its * nb) s (total st')).
  { intros LL E. rewrite Nat2Z.id in E. destruct (C106_active_learning _ _ _ _ _ _ _ _ _ _ _ _ _ SUL S1 UD E) as (A & B & C & D).
    split; [exact A|]. split; [exact (frame_trans _ _ _ F B)|]. split; [exact C|exact D]. }
  destruct sl as [LL|].
  - intros E. destruct (G LL E) as (A & B & C & D). repeat (split; [assumption|]). exists LL. split; [reflexivity|exact D].
  - destruct (seqs s) as [|x xs] eqn:ES; [discriminate|]. intros E. destruct (G _ E) as (A & B & C & D). repeat (split; [assumption|]). eexists. split; [reflexivity|exact D].
Qed.
Print Assumptions C104_training_set.

(** ** C64: the learning rate *)
(** Two rates different from 0 give the same result. *)
Theorem C64_rate_has_no_effect_refuted : forall (lr1 lr2 : rate R), rate_is_zero lr1 = false -> rate_is_zero lr2 = false ->
  forall (stormpy so vs : bool) (p fuel max_it : nat) (eps : R) (sul : mdp R) (iterations nb : Z) (sl : option Z) (eg : R) t (h0 : mdp R) draws,
  active_fit stormpy so vs p fuel max_it eps sul lr1 iterations nb sl eg t h0 draws =
  active_fit stormpy so vs p fuel max_it eps sul lr2 iterations nb sl eg t h0 draws.
Proof.
  intros lr1 lr2 Z1 Z2 sto so vs p fuel mx eps sul its nb sl eg t h0 draws.
  assert (I : forall L st d, active_iter p fuel eps sul lr1 L nb eg st d = active_iter p fuel eps sul lr2 L nb eg st d).
  { intros L st d. unfold active_iter. rewrite Z1, Z2. destruct (addTraces _ _ _ _ _ _ _ _) as [[[sample|e] l]|]; [|reflexivity..].
    destruct (addSet tr_eqb (total st) sample) as [total'|e]; [|reflexivity]. unfold bw_fit. destruct (bw_loop _ _ _ _ _ _) as [[[[m' c] ll] b]|e]; [|reflexivity].
    destruct b; [|reflexivity]. rewrite !merge_self. reflexivity. }
  assert (LO : forall k L st d, active_loop p fuel eps sul lr1 L nb eg k st d = active_loop p fuel eps sul lr2 L nb eg k st d).
  { induction k as [|k IH]; intros L st d; [reflexivity|]. cbn [active_loop]. rewrite I. destruct (active_iter _ _ _ _ _ _ _ _ _ _) as [[[st1|e] l1]|]; [apply IH|reflexivity..]. }
  unfold active_fit. destruct (_ && _ && _)%bool; [reflexivity|]. destruct (bw_loop _ _ _ _ _ _) as [[[[h1 c] ll] b]|e]; [|reflexivity].
  destruct t; [|reflexivity]. destruct sl; [apply LO|]. destruct (seqs _); [reflexivity|apply LO].
Qed.
Print Assumptions C64_rate_has_no_effect_refuted.
Example C64_rates_instance : rate_is_zero (Rate (1/2)) = false /\ rate_is_zero (Rate (9/10)) = false /\ @rate_is_zero R RNum Dynamic = false.
Proof. split; [|split; [|reflexivity]]; unfold rate_is_zero; nR; unfold Reqb; destruct (Req_EM_T _ 0); [lra|reflexivity|lra|reflexivity]. Qed.

(** In one iteration the model is replaced by what is learned from the sample
    alone, starting from the previous model. *)
Theorem C64_iteration : forall (p fuel : nat) (eps : R) (sul : mdp R) (lr : rate R) (L : Z) (nb : nat) (eg : R) st draws st' l,
  sul_ok sul -> started st -> (forall r, In r draws -> unit_draw r) -> rate_is_zero lr = false ->
  active_iter p fuel eps sul lr L (Z.of_nat nb) eg st draws = Some (Ok st', l) ->
  exists sample c ll, addTraces p (hypothesis st) sul L (Z.of_nat nb) (total st) eg draws = Some (Ok sample, l) /\
    bw_loop (round_MDP p (weighted sample)) eps fuel None 0 (hypothesis st) = Ok (hypothesis st', c, ll, true).
Proof.
  intros p fuel eps sul lr L nb eg st draws st' l SUL S0 UD Z E. destruct (iter_ok _ _ _ _ _ _ _ _ _ _ _ _ SUL S0 UD E) as (_ & _ & _ & _ & _ & _ & sample & m' & c & ll & EA & _ & EB & <-).
  unfold learned_from in EB. rewrite Z in EB. exists sample, c, ll. split; assumption.
Qed.
Print Assumptions C64_iteration.

(** What merging does on two different objects: the convex combination. *)
Theorem C64_merge : forall (hp : list (mdp R)) (lh lo : nat) (lr : R) (n J : nat),
  (lh < length hp)%nat -> wf_mdp (deref hp lh) -> wf_mdp (deref hp lo) ->
  mdp_n (deref hp lh) = n -> mdp_n (deref hp lo) = n -> length (mdp_act (deref hp lh)) = J -> length (mdp_act (deref hp lo)) = J ->
  let m := deref (mergeModels hp lh lo lr) lh in
  same_frame (deref hp lh) m /\ wf_mdp m /\
  (forall s j s', (s < n)%nat -> (j < J)%nat -> (s' < n)%nat ->
     prob_of m s j s' = lr * prob_of (deref hp lh) s j s' + (1 - lr) * prob_of (deref hp lo) s j s') /\
  (forall s j, (s < n)%nat -> (j < J)%nat -> row_total m s j = lr * row_total (deref hp lh) s j + (1 - lr) * row_total (deref hp lo) s j) /\
  (forall l, l <> lh -> deref (mergeModels hp lh lo lr) l = deref hp l).
Proof.
  intros hp lh lo lr n J Lh Wh Wo Nh No Jh Jo m.
  assert (Em : m = set_matrix (deref hp lh) (mix_matrix lr (mdp_mat (deref hp lh)) (mdp_mat (deref hp lo)))).
  { unfold m, mergeModels. apply deref_upd, Lh. }
  set (A := mdp_mat (deref hp lh)) in *. set (B := mdp_mat (deref hp lo)) in *.
  assert (LA : length A = n) by exact Nh. assert (LB : length B = n) by exact No.
  assert (RA : forall s, (s < n)%nat -> length (nth s A []) = J /\ forall j, (j < J)%nat -> length (nth j (nth s A []) []) = n).
  { intros s Hs. destruct (proj1 Wh (nth s A [])) as [X Y]; [apply nth_In; change (s < length A)%nat; lia|]. split; [congruence|]. intros j Hj. rewrite <- Nh. apply Y, nth_In. lia. }
  assert (RB : forall s, (s < n)%nat -> length (nth s B []) = J /\ forall j, (j < J)%nat -> length (nth j (nth s B []) []) = n).
  { intros s Hs. destruct (proj1 Wo (nth s B [])) as [X Y]; [apply nth_In; change (s < length B)%nat; lia|]. split; [congruence|]. intros j Hj. rewrite <- No. apply Y, nth_In. lia. }
  assert (LM : length (mdp_mat m) = n). { rewrite Em. cbn [set_matrix mdp_mat]. unfold mix_matrix. rewrite zipwith_length. lia. }
  assert (R1 : forall s, (s < n)%nat -> nth s (mdp_mat m) [] = zipwith (zipwith (fun x y => lr * x + (1 - lr) * y)) (nth s A []) (nth s B [])).
  { intros s Hs. rewrite Em. cbn [set_matrix mdp_mat]. unfold mix_matrix. nR. apply nth_zipwith; lia. }
  assert (R2 : forall s j, (s < n)%nat -> (j < J)%nat -> nth j (nth s (mdp_mat m) []) [] = zipwith (fun x y => lr * x + (1 - lr) * y) (nth j (nth s A []) []) (nth j (nth s B []) [])).
  { intros s j Hs Hj. rewrite R1 by exact Hs. apply nth_zipwith; [rewrite (proj1 (RA s Hs))|rewrite (proj1 (RB s Hs))]; exact Hj. }
  split; [|split; [|split; [|split]]].
  - unfold same_frame. split; [unfold mdp_n at 1; rewrite LM; symmetry; exact Nh|]. rewrite Em. repeat split.
  - assert (NM : mdp_n m = n) by exact LM. split; [|rewrite NM, Em; cbn [set_matrix mdp_lab mdp_act mdp_ini]; rewrite <- Nh; apply Wh].
    intros ra I. apply (In_nth _ _ []) in I as (s & Hs & <-). rewrite LM in Hs. rewrite R1 by exact Hs. rewrite zipwith_length, (proj1 (RA s Hs)), (proj1 (RB s Hs)), Nat.min_id.
    split; [rewrite Em; cbn [set_matrix mdp_act]; symmetry; exact Jh|]. intros r I. apply (In_nth _ _ []) in I as (j & Hj & <-). rewrite zipwith_length, (proj1 (RA s Hs)), (proj1 (RB s Hs)), Nat.min_id in Hj.
    rewrite <- (R1 s Hs), (R2 s j Hs Hj), zipwith_length, (proj2 (RA s Hs) j Hj), (proj2 (RB s Hs) j Hj), Nat.min_id. symmetry; exact NM.
  - intros s j s' Hs Hj Hs'. unfold prob_of. rewrite (R2 s j Hs Hj). rewrite (nth_zipwith _ _ _ s' 0 0 0); [reflexivity|rewrite (proj2 (RA s Hs) j Hj); exact Hs'|rewrite (proj2 (RB s Hs) j Hj); exact Hs'].
  - intros s j Hs Hj. unfold row_total. rewrite (R2 s j Hs Hj). fold A B. 
    assert (G : forall x y, length x = length y -> rsum (zipwith (fun a b => lr * a + (1 - lr) * b) x y) = lr * rsum x + (1 - lr) * rsum y).
    { clear. induction x as [|a x IH]; intros [|b y] L; cbn [length] in L; try lia; [cbn; lra|]. cbn [zipwith]. rewrite !rsum_cons, IH by lia. lra. }
    apply G. rewrite (proj2 (RA s Hs) j Hj), (proj2 (RB s Hs) j Hj). reflexivity.
  - intros l NE. unfold mergeModels, deref. rewrite LCtor.upd_nth by exact Lh. replace (lh =? l)%nat with false by (symmetry; apply Nat.eqb_neq; congruence). reflexivity.
Qed.
Print Assumptions C64_merge.

(** Merging two valid MDPs that offer the same actions gives a valid MDP. *)
Theorem C64_merge_stochastic : forall (hp : list (mdp R)) (lh lo : nat) (lr : R),
  (lh < length hp)%nat -> hyp_ok (deref hp lh) -> wf_mdp (deref hp lo) -> nonneg_mdp (deref hp lo) -> mdp_n (deref hp lo) = mdp_n (deref hp lh) ->
  length (mdp_act (deref hp lo)) = length (mdp_act (deref hp lh)) -> 0 <= lr <= 1 ->
  (forall s j, (s < mdp_n (deref hp lh))%nat -> (j < length (mdp_act (deref hp lh)))%nat -> row_total (deref hp lo) s j = row_total (deref hp lh) s j) ->
  hyp_ok (deref (mergeModels hp lh lo lr) lh).
Proof.
  intros hp lh lo lr Lh (Wh & Nh & Rh & Pn & PJ) Wo No En EJ Hl RT.
  destruct (C64_merge hp lh lo lr _ _ Lh Wh Wo eq_refl En eq_refl EJ) as (F & Wm & PM & RM & _). set (m := deref (mergeModels hp lh lo lr) lh) in *.
  destruct F as (F1 & F2 & F3 & _). split; [exact Wm|]. split; [|split; [|rewrite F1, F3; split; assumption]].
  - intros ra I r Ir v Iv. apply (In_nth _ _ []) in I as (s & Hs & <-). pose proof (proj1 Wm _ (nth_In _ [] Hs)) as [La Lr]. pose proof (Lr r Ir) as Lr'.
    apply (In_nth _ _ []) in Ir as (j & Hj & <-). apply (In_nth _ _ 0) in Iv as (s' & Hs' & <-). change (0 <= prob_of m s j s').
    change (s < mdp_n m)%nat in Hs. rewrite F1 in Hs. rewrite La, F3 in Hj. rewrite Lr', F1 in Hs'. rewrite PM by assumption.
    assert (G : forall x, nonneg_mdp x -> 0 <= prob_of x s j s').
    { intros x Nx. unfold prob_of. destruct (nth_in_or_default s (mdp_mat x) []) as [I|E]; [|rewrite E; destruct j, s'; cbn; lra].
      destruct (nth_in_or_default j (nth s (mdp_mat x) []) []) as [I'|E]; [|rewrite E; destruct s'; cbn; lra].
      destruct (nth_in_or_default s' (nth j (nth s (mdp_mat x) []) []) 0) as [I2|E]; [|rewrite E; lra]. exact (Nx _ I _ I' _ I2). }
    apply Rplus_le_le_0_compat; apply Rmult_le_pos; try apply G; try assumption; lra.
  - intros s j Hs Hj. rewrite F1 in Hs. rewrite F3 in Hj. rewrite RM, RT by assumption. replace (lr * _ + _) with (row_total (deref hp lh) s j) by ring. apply Rh; assumption.
Qed.
Print Assumptions C64_merge_stochastic.

(** The dynamic rate of an iteration is the number of new traces over the number
    of traces known before. *)
Theorem C64_dynamic_rate : forall (p fuel : nat) (eps : R) (sul : mdp R) (lr : rate R) (L : Z) (nb : nat) (eg : R) st draws st' l,
  sul_ok sul -> started st -> (forall r, In r draws -> unit_draw r) ->
  active_iter p fuel eps sul lr L (Z.of_nat nb) eg st draws = Some (Ok st', l) -> (0 < zsum (times (total st)))%Z ->
  exists sample, addTraces p (hypothesis st) sul L (Z.of_nat nb) (total st) eg draws = Some (Ok sample, l) /\
    let N := IZR (zsum (times (total st))) in
    let rate := lr_it Dynamic (zsum (times sample)) (zsum (times (total st'))) in
    rate = INR nb / N /\ (rate <= 1 <-> INR nb <= N).
Proof.
  intros p fuel eps sul lr L nb eg st draws st' l SUL S0 UD E PN. destruct (iter_ok _ _ _ _ _ _ _ _ _ _ _ _ SUL S0 UD E) as (_ & _ & _ & X & _ & _ & sample & m' & c & ll & EA & _ & _).
  exists sample. split; [exact EA|]. cbn [lr_it]. destruct SUL as (W & DM & DI).
  destruct (C102_sample p _ sul L nb _ eg draws sample l W DM DI UD EA) as (trs & _ & _ & _ & _ & _ & _ & _ & ->). destruct X as (_ & _ & _ & _ & _ & ->).
  assert (PN' : 0 < IZR (zsum (times (total st)))) by (apply (IZR_lt 0), PN).
  assert (Er : @lr_it R RNum Dynamic (Z.of_nat nb) (zsum (times (total st)) + Z.of_nat nb) = INR nb / IZR (zsum (times (total st)))).
  { unfold lr_it. nR. rewrite <- INR_IZR_INZ. f_equal. f_equal. lia. }
  change (@ndiv R RNum (nofZ (Z.of_nat nb)) (nofZ (zsum (times (total st)) + Z.of_nat nb - Z.of_nat nb))) with (@lr_it R RNum Dynamic (Z.of_nat nb) (zsum (times (total st)) + Z.of_nat nb)).
  rewrite Er. split; [reflexivity|]. split; intros H.
  - apply (Rmult_le_reg_r (/ IZR (zsum (times (total st))))); [apply Rinv_0_lt_compat, PN'|]. rewrite Rinv_r by lra. exact H.
  - apply (Rmult_le_reg_r (IZR (zsum (times (total st))))); [exact PN'|]. unfold Rdiv. rewrite Rmult_assoc, Rinv_l by lra. lra.
Qed.
Print Assumptions C64_dynamic_rate.

(** ** Example: the rate 1/2 does not average *)
Definition ex_one : tset (list string) := mkset [["x"; "a"; "y"]%string] [1%Z] (Some 1%Z).
Definition ex_start : astate R := mkA [ex_mdp] 0 ex_dset 0.
Example C105_C106_instance : sul_ok ex_mdp /\ started ex_start /\ possible_in (hypothesis ex_start) (weighted (total ex_start)) /\
  (0 < zsum (times (total ex_start)))%Z /\ (forall r, In r ex_draws -> unit_draw r).
Proof.
  destruct C102_instance as (W & DM & DI & UD & _). destruct C101_instance as (_ & N & A & _ & PO). split; [split; [exact W|split; assumption]|]. split.
  { split; [cbn; lia|]. split.
    - split; [exact W|]. split; [exact N|]. split; [apply C36_C37_C40_C42_instance|]. split; cbn; lia.
    - split; [split; [reflexivity|]|].
      + constructor; [intros [H|[]]; discriminate|]. constructor; [intros []|constructor].
      + split; [intros t [<-|[<-|[]]]; lia|]. split; [reflexivity|]. intros tr [<-|[<-|[]]]; reflexivity. }
  split; [exact PO|]. split; [cbn; lia|exact UD].
Qed.
Lemma ex_fit (eps : R) : 0 < eps -> exists fuel m' c ll, bw_loop (round_MDP 2 (weighted ex_one)) eps fuel None 0 ex_mdp = Ok (m', c, ll, true) /\ prob_of m' 0 0 0 = 0.
Proof.
  intros He. destruct C36_C37_C40_C42_instance as (W & N & S0 & S1 & Si & _ & _ & P & _).
  assert (P1 : mdp_trace_prob ex_mdp ["x"; "a"; "y"]%string = 1/2) by (unfold mdp_trace_prob, trace_prob, sumL, act_mat, is_label, Sum, sumL; cbn; lra).
  assert (HT : pos_times (weighted ex_one)) by (intros st [<-|[]]; cbn; lia).
  assert (A : alternating_set (weighted ex_one)) by (intros tr t [E|[]]; inversion E; reflexivity).
  assert (PO : exists tr t, In (tr, t) (weighted ex_one) /\ 0 < mdp_trace_prob ex_mdp tr) by (exists ["x"; "a"; "y"]%string, 1%Z; split; [left; reflexivity|rewrite P1; lra]).
  destruct (archimed (- set_ll (mdp_trace_prob ex_mdp) (weighted ex_one) / eps)) as [Up _].
  set (u := up _) in *.
  destruct (C42_mdp_terminates ex_mdp 2 (weighted ex_one) eps (Z.to_nat (Z.max 0 u)) W N S1 Si HT A He PO (or_introl (le_n _))) as (m' & c & ll & _ & E).
  { rewrite INR_IZR_INZ, Z2Nat.id by lia. apply (Rmult_lt_reg_r (/ eps)); [apply Rinv_0_lt_compat, He|]. rewrite Rmult_assoc, Rinv_r, Rmult_1_r by lra.
    apply (Rlt_le_trans _ (IZR u)); [exact Up|]. apply IZR_le. lia. }
  specialize (E _ (le_n _)). exists (Datatypes.S (Z.to_nat (Z.max 0 u))), m', c, (Some ll). split; [exact E|].
  cbn [bw_loop] in E. destruct (round_MDP 2 (weighted ex_one) ex_mdp) as [[m1 l1]|e] eqn:Er; [|discriminate]. cbn [bind] in E.
  destruct (C73_mdp_round_is_ratio_of_expectations ex_mdp m1 2 (weighted ex_one) l1 W N A Er) as (F2 & F3 & F4 & F5 & F1 & _ & C73).
  assert (Z1 : prob_of m1 0 0 0 = 0).
  { rewrite (C73 O O O) by (cbn; lia). change (nth 0 (mdp_act ex_mdp) EmptyString) with "a"%string. unfold set_expected, sumL. cbn [weighted combine seqs times ex_one map fst snd].
    destruct (Rlt_dec 0 _) as [Q|Q]; [|rewrite P1 in Q; lra]. rewrite P1.
    replace (mdp_expected_visits ex_mdp 0 "a" ["x"; "a"; "y"]%string) with (1/2) by (unfold mdp_expected_visits, mdp_expected, expected, sumL, act_mat, is_label, Sum, sumL, on_leave, ind; cbn; lra).
    replace (mdp_expected_moves ex_mdp 0 "a" 0 ["x"; "a"; "y"]%string) with 0 by (unfold mdp_expected_moves, mdp_expected, expected, sumL, act_mat, is_label, Sum, sumL, on_move, ind; cbn; lra).
    cbn. destruct (Req_EM_T _ 0) as [B|B]; [lra|]. lra. }
  destruct (round_mdp_ok ex_mdp _ 2 m1 l1 (conj W N) Er HT) as [O1 _].
  apply (bw_loop_inv _ _ (fun x => (mdp_ok x /\ same_frame ex_mdp x) /\ prob_of x 0 0 0 = 0)) in E.
  - apply E.
  - intros x x' l [[O F] Zx] Er'. destruct (round_mdp_ok x (weighted ex_one) 2 x' l O Er' HT) as [O' F'].
    split; [split; [exact O'|exact (frame_trans _ _ _ F F')]|]. destruct O as [Wx Nx]. destruct F as (G1 & _ & G3 & _).
    destruct (round_MDP_spec x Wx (weighted ex_one) Nx 2 x' l Er') as (_ & _ & _ & _ & _ & _ & H & _).
    apply (d_zero' x Wx (weighted ex_one) x' H O O O); [rewrite G1; cbn; lia|rewrite G3; cbn; lia|rewrite G1; cbn; lia|exact Zx].
  - split; [split; [exact O1|repeat split; assumption]|exact Z1].
Qed.
(** From the model [ex_mdp], one sampled trace, rate 1/2: the probability of
    staying in the first state under the first action goes from 1/2 to 0, although
    the average of the model learned from the sample (0) and of the previous one
    (1/2) is 1/4. *)
Theorem C64_average_refuted : forall (eps : R), 0 < eps ->
  exists fuel st' new c ll, started ex_start /\
    active_iter 2 fuel eps ex_mdp (Rate (1/2)) 1 1 0 ex_start ex_draws = Some (Ok st', []) /\
    addTraces 2 ex_mdp ex_mdp 1 1 ex_dset 0 ex_draws = Some (Ok ex_one, []) /\
    bw_loop (round_MDP 2 (weighted ex_one)) eps fuel None 0 ex_mdp = Ok (new, c, ll, true) /\
    prob_of (hypothesis st') 0 0 0 <> 1/2 * prob_of new 0 0 0 + (1 - 1/2) * prob_of (hypothesis ex_start) 0 0 0.
Proof.
  intros eps He. destruct (ex_fit eps He) as (fuel & m' & c & ll & E & Z). destruct C102_instance as (_ & _ & _ & _ & EA). change (Z.of_nat 1) with 1%Z in EA.
  destruct C105_C106_instance as (_ & S0 & _).
  destruct (addSet tr_eqb ex_dset ex_one) as [tot|e] eqn:ES; [|discriminate].
  eexists fuel, _, m', c, ll. split; [exact S0|]. split.
  { unfold active_iter. change (deref (heap ex_start) (self_h ex_start)) with ex_mdp. change (total ex_start) with ex_dset. rewrite EA. fold ex_one. rewrite ES.
    destruct C64_rates_instance as (-> & _ & _). unfold bw_fit. change (deref (heap ex_start) (self_h ex_start)) with ex_mdp. fold (weighted ex_one). rewrite E. rewrite merge_self. reflexivity. }
  split; [exact EA|]. split; [exact E|]. unfold hypothesis at 1. cbn [heap self_h ex_start upd deref nth]. unfold deref. cbn [nth]. rewrite Z.
  unfold hypothesis, deref, ex_start, prob_of. cbn. lra.
Qed.
Print Assumptions C64_average_refuted.
Example C64_merge_instance : let hp := [ex_mdp; ex_loop] in
  (0 < length hp)%nat /\ hyp_ok (deref hp 0) /\ wf_mdp (deref hp 1) /\ nonneg_mdp (deref hp 1) /\ mdp_n (deref hp 1) = mdp_n (deref hp 0) /\
  length (mdp_act (deref hp 1)) = length (mdp_act (deref hp 0)) /\
  (forall s j, (s < mdp_n (deref hp 0))%nat -> (j < length (mdp_act (deref hp 0)))%nat -> row_total (deref hp 1) s j = row_total (deref hp 0) s j).
Proof.
  intros hp. destruct C105_C106_instance as (_ & (_ & HO & _) & _). destruct ex_loop_ok as (W & N & _). split; [cbn; lia|]. split; [exact HO|]. split; [exact W|]. split; [exact N|]. repeat split.
Qed.
(** Refutations: the hypotheses of the case with one process. *)
Example C105_instance : (1 <= 1)%nat /\ hyp_ok ex_mdp /\ (mdp_n ex_mdp * length (mdp_act ex_mdp) <> 1)%nat /\ traces_ok ex_dset /\ possible_in ex_mdp (weighted ex_dset).
Proof.
  destruct C105_C106_instance as (_ & (_ & HO & TO) & PO & _). split; [lia|]. split; [exact HO|]. split; [cbn; lia|]. split; assumption.
Qed.
