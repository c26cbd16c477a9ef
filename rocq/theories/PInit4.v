(** Theorem C132: fit of a number of states for traces with actions. *)
From Coq Require Import String ZArith Bool Reals List Lra Lia.
From Verif Require Import Num Py SNum LSum SPath LPath MTools MSet SSet LSet MModels LBW SBW SLik MCtor SCtor LCtor PCtor LRun PRun MRandom PRandom MLik MBW LBWMC LBWLoop LLik2 MBWObj MPrep PPrep MInit LInit PInit PInit2 PInit3 PBWMC LBWMDP PBWMDP PLik PBWObj PPool.
Import ListNotations.
Local Open Scope R_scope.

(** A trace given by its (action, label) pairs after 'init'. *)
Definition alt (w : list (string * string)) : list string := "init"%string :: flat_map (fun ao => [fst ao; snd ao]) w.
Definition action_set (T : list (list (string * string))) (ts : list Z) : tset (list (pv R)) := mkset (map (fun w => map VStr (alt w)) T) ts (Some 1%Z).
Definition good_actions (T : list (list (string * string))) (ts : list Z) : Prop :=
  length ts = length T /\ (forall z, In z ts -> (0 < z)%Z) /\ (exists w, In w T /\ w <> []) /\ forall w, In w T -> ~ In "init"%string (map snd w).
Definition labels_of (T : list (list (string * string))) := map (map snd) T.
Definition actions_of (T : list (list (string * string))) := map (map fst) T.
Definition good_drawn_mdp (n : nat) (T : list (list (string * string))) (dr : drawn R) : Prop :=
  (forall s a, (s <= n)%nat -> good_draws n (dr_act dr s a)) /\
  forall al, NoDup al -> (forall x, In x al <-> occurs (labels_of T) x) -> forall k, (dr_extra dr k < length al)%nat.

Lemma alt_shape i w : let l := i :: flat_map (fun ao : string * string => [fst ao; snd ao]) w in
  evens l = i :: map snd w /\ odds l = map fst w /\ Nat.odd (length l) = true.
Proof.
  revert i. induction w as [|[a o] w IH]; intros i; [repeat split|]. cbn zeta. cbn [flat_map app fst snd]. specialize (IH o) as (A & B & C).
  split; [|split].
  - cbn [evens odds map snd]. f_equal. exact A.
  - cbn [evens odds map fst]. f_equal. exact B.
  - cbn [length] in *. rewrite Nat.odd_succ in *. exact C.
Qed.
Lemma evens_nth {E} (l : list E) k : nth_error l (2 * k) = nth_error (evens l) k.
Proof.
  revert l. induction k as [|k IH]; intros [|x l]; try reflexivity. replace (2 * S k)%nat with (S (S (2 * k))) by lia. cbn [nth_error evens].
  destruct l as [|y l]; cbn [nth_error odds]; [destruct k; reflexivity|]. apply IH.
Qed.
Lemma odds_nth {E} (l : list E) k : nth_error l (2 * k + 1) = nth_error (odds l) k.
Proof. destruct l as [|x l]; [rewrite Nat.add_1_r; destruct k; reflexivity|]. rewrite Nat.add_1_r. cbn [nth_error odds]. apply evens_nth. Qed.
Lemma at_even_alt T x : at_even (map (fun w => map (@VStr R) (alt w)) T) x <-> exists w, In w T /\ exists o, x = VStr o /\ In o ("init"%string :: map snd w).
Proof.
  split.
  - intros (s & k & I & J). apply in_map_iff in I as (w & <- & I). exists w. split; [exact I|]. rewrite nth_error_map in J.
    destruct (nth_error (alt w) (2 * k)) as [o|] eqn:F; [|discriminate]. injection J as <-. exists o. split; [reflexivity|]. rewrite evens_nth in F. apply nth_error_In in F.
    unfold alt in F. rewrite (proj1 (alt_shape _ w)) in F. exact F.
  - intros (w & I & o & -> & J). rewrite <- (proj1 (alt_shape "init"%string w)) in J. apply In_nth_error in J as (k & J). rewrite <- evens_nth in J.
    exists (map VStr (alt w)), k. split; [apply in_map_iff; exists w; auto|]. rewrite nth_error_map. unfold alt. rewrite J. reflexivity.
Qed.
Lemma at_odd_alt T x : at_odd (map (fun w => map (@VStr R) (alt w)) T) x <-> exists w, In w T /\ exists a, x = VStr a /\ In a (map fst w).
Proof.
  split.
  - intros (s & k & I & J). apply in_map_iff in I as (w & <- & I). exists w. split; [exact I|]. rewrite nth_error_map in J.
    destruct (nth_error (alt w) (2 * k + 1)) as [o|] eqn:F; [|discriminate]. injection J as <-. exists o. split; [reflexivity|]. rewrite odds_nth in F. apply nth_error_In in F.
    unfold alt in F. rewrite (proj1 (proj2 (alt_shape _ w))) in F. exact F.
  - intros (w & I & o & -> & J). rewrite <- (proj1 (proj2 (alt_shape "init"%string w))) in J. apply In_nth_error in J as (k & J). rewrite <- odds_nth in J.
    exists (map VStr (alt w)), k. split; [apply in_map_iff; exists w; auto|]. rewrite nth_error_map. unfold alt. rewrite J. reflexivity.
Qed.
Lemma occurs_map {B} (f : B -> string) T x : occurs (map (map f) T) x <-> exists w, In w T /\ In x (map f w).
Proof.
  split.
  - intros (t & I & J). apply in_map_iff in I as (w & <- & I). exists w. auto.
  - intros (w & I & J). exists (map f w). split; [apply in_map_iff; exists w; auto|exact J].
Qed.

Lemma prepare_actions (eqe : pv R -> pv R -> bool) T ts : decides_eq eqe -> good_actions T ts ->
  exists al act, getTrainingSet eqe None (UserSet (action_set T ts)) =
    Ok (mkPrep (action_set T ts) (Some (map VStr al)) (UserSet (action_set T ts))) /\
    NoDup al /\ (forall x, In x al <-> occurs (labels_of T) x) /\
    (exists obs, actions_observations eqe (seqs (action_set T ts)) = Ok (map VStr act, obs)) /\
    NoDup act /\ (forall x, In x act <-> occurs (actions_of T) x).
Proof.
  intros EQ (L & P & (w0 & I0 & N0) & NI). rewrite getTrainingSet_set.
  destruct (actions_observations_exact eqe EQ (seqs (action_set T ts))) as (acts & obs & E & NA & NO & HA & HO).
  { intros s I. cbn [action_set seqs] in I. apply in_map_iff in I as (w & <- & _). rewrite map_length. apply (alt_shape "init"%string w). }
  cbn [action_set seqs] in HA, HO.
  assert (HO' : forall x, In x obs <-> exists o, x = VStr o /\ (o = "init"%string \/ occurs (labels_of T) o)).
  { intros x. rewrite HO, at_even_alt. split.
    - intros (w & I & o & -> & [<-|J]); [exists "init"%string; auto|]. exists o. split; [reflexivity|right; apply occurs_map; exists w; auto].
    - intros (o & -> & [->|J]); [exists w0; split; [exact I0|]; exists "init"%string; split; [reflexivity|left; reflexivity]|].
      apply occurs_map in J as (w & I & J). exists w. split; [exact I|]. exists o. split; [reflexivity|right; exact J]. }
  assert (HA' : forall x, In x acts <-> exists a, x = VStr a /\ occurs (actions_of T) a).
  { intros x. rewrite HA, at_odd_alt. split.
    - intros (w & I & a & -> & J). exists a. split; [reflexivity|apply occurs_map; exists w; auto].
    - intros (a & -> & J). apply occurs_map in J as (w & I & J). exists w. split; [exact I|]. exists a. auto. }
  destruct (all_strings acts) as (act & Eact); [intros x I; apply HA' in I as (a & -> & _); eauto|].
  assert (M : memb eqe (VStr "init") obs = true) by (apply (memb_In eqe EQ), HO'; exists "init"%string; auto).
  destruct (all_strings (remove_first eqe (VStr "init") obs)) as (al & Eal).
  { intros x I. apply (remove_first_notin eqe EQ _ _ NO) in I as [I _]. apply HO' in I as (o & -> & _). eauto. }
  exists al, act. split.
  { change (getAlphabet eqe (action_set T ts)) with (do r <- actions_observations eqe (seqs (action_set T ts)); Ok (snd r)).
    change (ty (action_set T ts)) with (Some 1%Z). cbn [optZ_eqb Z.eqb Pos.eqb negb andb]. rewrite E. cbn [bind snd]. rewrite M. cbn [negb]. rewrite Eal. reflexivity. }
  split; [apply (NoDup_unmap (F:=R)); rewrite <- Eal; apply remove_first_nodup, NO|]. split.
  { intros x. rewrite <- (In_VStr (F:=R) x al), <- Eal, (remove_first_notin eqe EQ _ _ NO), HO'. split.
    - intros [(o & F & J) N]. injection F as <-. destruct J as [->|J]; [congruence|exact J].
    - intros J. split; [exists x; auto|]. intros F. injection F as ->. apply occurs_map in J as (w & I & J). apply (NI w I J). }
  split; [exists obs; rewrite E, Eact; reflexivity|]. split; [apply (NoDup_unmap (F:=R)); rewrite <- Eact; exact NA|].
  intros x. rewrite <- (In_VStr (F:=R) x act), <- Eact, HA'. split; [intros (a & F & J); injection F as ->; exact J|intros J; exists x; auto].
Qed.

(** Fit is Baum-Welch started from the random MDP. *)
Lemma fit_random_MDP (eqe : pv R -> pv R -> bool) T ts n ri dr name lo hi loop nd :
  decides_eq eqe -> good_actions T ts -> (0 < n)%nat -> good_drawn_mdp n T dr ->
  exists al act m0, NoDup al /\ (forall x, In x al <-> occurs (labels_of T) x) /\ NoDup act /\ (forall x, In x act <-> occurs (actions_of T) x) /\
    MDP_random n al act [] ri false (dr_act dr) (fun _ _ _ => O) (dr_extra dr) name = Ok m0 /\
    wf_mdp m0 /\ nonneg_mdp m0 /\ mdp_n m0 = S n /\ mdp_act m0 = act /\ random_labels n al (mdp_lab m0) /\ is_dist (mdp_ini m0) /\ mdp_rows (fun x => x = 1) m0 /\
    (forall w, In w T -> (0 < mdp_trace_prob m0 (alt w) <->
      (forall x, In x (map snd w) -> In x (firstn n al)) /\ (ri = false -> w = [] \/ hd EmptyString (map snd w) = nth 0 al EmptyString))) /\
    forall p eps mx, fit_random eqe (UserSet (action_set T ts)) (Some n) ri lo hi loop nd name dr p eps mx =
      tag TheMDP (bw_loop (round_MDP p (combine (map alt T) ts)) eps mx None 0 m0).
Proof.
  intros EQ GS Pn [GD GX]. destruct (prepare_actions eqe T ts EQ GS) as (al & act & EP & ND & A & (obs & EO) & NDa & Aa). destruct GS as (L & Pz & (w0 & I0 & N0) & NI).
  destruct w0 as [|[a0 o0] w0]; [congruence|].
  assert (NEal : al <> []) by (assert (I : In o0 al) by (apply A, occurs_map; exists ((a0, o0) :: w0); split; [exact I0|left; reflexivity]); intros ->; destruct I).
  assert (NEact : act <> []) by (assert (I : In a0 act) by (apply Aa, occurs_map; exists ((a0, o0) :: w0); split; [exact I0|left; reflexivity]); intros ->; destruct I).
  assert (NIal : ~ In "init"%string al) by (intros I; apply A, occurs_map in I as (t & I & J); apply (NI t I J)).
  destruct (C129_MDP n al act [] ri (dr_act dr) (fun _ _ _ => O) (dr_extra dr) name Pn NEact NDa NEal NIal (GX al ND A) ltac:(intros; apply GD; lia) ltac:(intros; apply GD; lia)) as (m0 & E0 & W & NN & N & EA & RL & DI & DR & Sup).
  exists al, act, m0. repeat (split; [assumption|]). split.
  { intros s j Hs Hj. unfold row_total. destruct W as (W1 & _). assert (Is : In (nth s (mdp_mat m0) []) (mdp_mat m0)) by (apply nth_In; exact Hs).
    apply (DR _ Is). apply nth_In. rewrite (proj1 (W1 _ Is)). exact Hj. }
  split.
  { intros w Iw. destruct (alt_shape "init"%string w) as (Ev & Od & Odd). unfold alt. rewrite (Sup _ (map snd w) Odd Ev).
    - destruct w; cbn [map]; [|]; (split; intros [H1 H2]; (split; [exact H1|]); intros Hr; destruct (H2 Hr) as [F|F]; auto; discriminate).
    - intros a I. rewrite Od in I. apply Aa, occurs_map. exists w. auto. }
  intros p eps mx. unfold fit_random. rewrite EP. cbn [bind]. unfold createInitialModel. cbn [pr_set ty action_set pr_alphabet]. change (mkset (map (fun w => map VStr (alt w)) T) ts (Some 1%Z)) with (action_set T ts). rewrite EO. cbn [bind fst]. rewrite !strings_map. cbn [bind]. rewrite E0. cbn [bind].
  unfold job_of. cbn [seqs times action_set]. rewrite <- (map_map alt (map VStr)). rewrite mmap_strings. cbn [bind].
  change new_object with (after []). rewrite C117_reused_object; [reflexivity|exact I|left; reflexivity].
Qed.

(** Learning an MDP from traces with actions that start with 'init': as for
    Markov chains.  The actions of the result are those of the set. *)
Theorem C132_MDP : forall (eqe : pv R -> pv R -> bool) T ts n dr name lo hi loop nd processes eps,
  decides_eq eqe -> good_actions T ts -> (0 < n)%nat -> at_most n (labels_of T) -> good_drawn_mdp n T dr -> 0 < eps ->
  exists m0 m c ll N,
    (forall max_it, (N <= max_it)%nat ->
       fit_random eqe (UserSet (action_set T ts)) (Some n) true lo hi loop nd name dr processes eps max_it = Ok (TheMDP m, c, Some ll, true)) /\
    wf_mdp m /\ nonneg_mdp m /\ (forall s a, (s < mdp_n m)%nat -> In a (mdp_act m) -> Sum (mdp_n m) (act_mat m a s) = 1) /\ is_dist (mdp_ini m) /\ mdp_n m = S n /\
    NoDup (mdp_act m) /\ (forall a, In a (mdp_act m) <-> occurs (actions_of T) a) /\
    nth n (mdp_lab m) EmptyString = "init"%string /\
    (forall x, (exists s, (s < n)%nat /\ nth s (mdp_lab m) EmptyString = x) <-> occurs (labels_of T) x) /\
    (forall w, In w T -> 0 < mdp_trace_prob m (alt w)) /\
    (exists al act, NoDup al /\ (forall x, In x al <-> occurs (labels_of T) x) /\ NoDup act /\ (forall x, In x act <-> occurs (actions_of T) x) /\
      MDP_random n al act [] true false (dr_act dr) (fun _ _ _ => O) (dr_extra dr) name = Ok m0) /\
    set_ll (mdp_trace_prob m0) (combine (map alt T) ts) <= set_ll (mdp_trace_prob m) (combine (map alt T) ts).
Proof.
  intros eqe T ts n dr name lo hi loop nd p eps EQ GS Pn AM GD He.
  destruct (fit_random_MDP eqe T ts n true dr name lo hi loop nd EQ GS Pn GD) as (al & act & m0 & ND & A & NDa & Aa & E0 & W & NN & N & EA & RL & DI & Rows & Sup & FR).
  destruct GS as (L & Pz & (w0 & I0 & N0) & NI).
  set (set := combine (map alt T) ts) in *.
  assert (MEM : forall tr t, In (tr, t) set -> exists w, In w T /\ tr = alt w) by (intros tr t I; apply in_combine_l in I; apply in_map_iff in I as (w & <- & I); eauto).
  assert (HT : pos_times set) by (intros [tr t] I; apply in_combine_r in I; apply Pz, I).
  assert (AS : alternating_set set) by (intros tr t I; apply MEM in I as (w & _ & ->); apply (alt_shape "init"%string w)).
  assert (POSw : forall w, In w T -> 0 < mdp_trace_prob m0 (alt w)).
  { intros w I. apply (Sup w I). split; [|discriminate]. intros x J. rewrite (firstn_at_most n al _ ND A AM). apply A, occurs_map. exists w. auto. }
  assert (POS : forall tr t, In (tr, t) set -> 0 < mdp_trace_prob m0 tr) by (intros tr t I; apply MEM in I as (w & I & ->); apply POSw, I).
  assert (INS : forall w, In w T -> exists t, In (alt w, t) set).
  { intros w I. apply (In_nth _ _ []) in I as (i & Li & Ei). exists (nth i ts 0%Z). unfold set.
    replace (alt w) with (nth i (map alt T) (alt [])) by (rewrite (map_nth alt), Ei; reflexivity).
    rewrite <- combine_nth by (rewrite map_length; lia). apply nth_In. rewrite combine_length, map_length. lia. }
  assert (EX : exists tr t, In (tr, t) set /\ 0 < mdp_trace_prob m0 tr) by (destruct (INS w0 I0) as (t & J); exists (alt w0), t; split; [exact J|apply (POS _ _ J)]).
  destruct (archimed_nat (- set_ll (mdp_trace_prob m0) set / eps)) as (N' & HN').
  assert (HN : - set_ll (mdp_trace_prob m0) set < INR N' * eps).
  { apply (Rmult_lt_compat_r eps) in HN'; [|exact He]. unfold Rdiv in HN'. rewrite Rmult_assoc, Rinv_l, Rmult_1_r in HN' by lra. exact HN'. }
  assert (R1 : mdp_rows (fun x => x <= 1) m0) by (intros s j Hs Hj; rewrite (Rows s j Hs Hj); lra).
  assert (R01 : mdp_rows (fun x => x = 0 \/ x = 1) m0) by (intros s j Hs Hj; right; apply (Rows s j Hs Hj)).
  destruct (C42_mdp_terminates m0 p set eps N' W NN R1 ltac:(rewrite (proj2 DI); lra) HT AS He EX (or_intror POS) HN) as (m & c & ll & Hc & B).
  exists m0, m, c, ll, (S N').
  pose proof (B (S N') (le_n _)) as B0.
  destruct (C36_mdp_learning_stochastic m0 m p _ c set eps (Some ll) true W NN R01 HT B0) as (W' & NN' & (F1 & F2 & F3 & F4 & F5) & _ & RT).
  split; [intros mx Hm; rewrite FR, (B mx Hm); reflexivity|]. split; [exact W'|]. split; [exact NN'|]. split.
  { intros s a Hs Ia. apply (In_nth _ _ EmptyString) in Ia as (j & Hj & Ej). rewrite <- Ej.
    rewrite (Sum_ext _ _ (tget (mdp_mat m) s j)) by (intros; apply act_nth; [apply W'|exact Hj]).
    rewrite <- (row_Sum m m eq_refl m s j (proj1 W') Hs Hj). change (row_total m s j = 1). rewrite RT by (rewrite <- ?F1, <- ?F3; assumption). apply Rows; rewrite <- ?F1, <- ?F3; assumption. }
  rewrite F4, F1, F3, F2, EA. split; [exact DI|]. split; [exact N|]. split; [exact NDa|]. split; [exact Aa|]. split; [apply RL|]. split.
  { intros x. rewrite (random_label_set n al (mdp_lab m0) RL x), (firstn_at_most n al _ ND A AM). apply A. }
  assert (INV : (mdp_ok m /\ mdp_rows (fun x => x <= 1) m) /\ (forall tr t, In (tr, t) set -> 0 < mdp_trace_prob m tr) /\ set_ll (mdp_trace_prob m0) set <= set_ll (mdp_trace_prob m) set).
  { apply (bw_loop_inv (round_MDP p set) eps (fun x => (mdp_ok x /\ mdp_rows (fun v => v <= 1) x) /\ (forall tr t, In (tr, t) set -> 0 < mdp_trace_prob x tr) /\
                set_ll (mdp_trace_prob m0) set <= set_ll (mdp_trace_prob x) set)) in B0; [exact B0| |].
    - intros x x' l [[Ok1 S1] [P1 M1]] Er.
      destruct (C40_mdp_round_likelihood x x' p set l (proj1 Ok1) (proj2 Ok1) S1 HT AS Er) as (_ & M2 & Ps).
      split; [apply (mdp_round_sub x set p x' l Ok1 S1 HT Er)|]. split; [intros tr t I; apply (Ps tr t I), (P1 tr t I)|lra].
    - split; [split; [split; assumption|exact R1]|]. split; [exact POS|lra]. }
  destruct INV as (_ & P' & M').
  split; [intros w I; destruct (INS w I) as (t & J); apply (P' _ _ J)|]. split; [exists al, act; auto|exact M'].
Qed.
Print Assumptions C132_MDP.

Lemma mdp_prob_nonneg (m : mdp R) tr : wf_mdp m -> nonneg_mdp m -> 0 <= mdp_trace_prob m tr.
Proof.
  intros W NN. unfold mdp_trace_prob, trace_prob. apply sumL_nonneg. intros y J. apply Rmult_le_pos; [unfold vecR; destruct (nth_in_or_default (hd O y) (mdp_ini m) 0) as [K|F]; [apply W, K|rewrite F; lra]|].
  apply (path_weight_nonneg (mdp_n m)); [apply (paths_range _ _ _ J)| |].
  - intros B i j K _ _. apply in_map_iff in K as (a & <- & _). apply act_mat_nonneg, NN.
  - intros b i K _. apply in_map_iff in K as (? & <- & _). apply is_label_nonneg.
Qed.
Lemma mdp_impossible_stays (p : nat) set eps mx m0 m c ll st : wf_mdp m0 -> nonneg_mdp m0 -> mdp_rows (fun x => x <= 1) m0 -> pos_times set -> alternating_set set -> (1 <= mx)%nat ->
  (exists tr t, In (tr, t) set /\ mdp_trace_prob m0 tr = 0) -> bw_loop (round_MDP p set) eps mx None 0 m0 = Ok (m, c, ll, st) ->
  (1 < p)%nat /\ forall tr t, In (tr, t) set -> mdp_trace_prob m0 tr = 0 -> mdp_trace_prob m tr = 0.
Proof.
  intros W NN S HT AS Hm (tr0 & z0 & I0 & Z0) B. split.
  - destruct (Nat.lt_ge_cases 1 p) as [|Hp]; [assumption|]. exfalso. destruct mx as [|mx]; [lia|]. cbn [bw_loop] in B.
    assert (F : forall r, round_MDP p set m0 <> Ok r).
    { intros r F. unfold round_MDP, update_MDP in F. rewrite unwrap_run_one_err in F; [discriminate|exact Hp|]. exists (tr0, z0). split; [exact I0|]. cbn [fst snd].
      rewrite (d_work m0 W set _ _ I0), dP_path, Z0 by (auto; exact (AS _ _ I0)). destruct (Req_EM_T 0 0); [reflexivity|congruence]. }
    destruct (round_MDP p set m0) as [r|e]; [exact (F r eq_refl)|discriminate].
  - assert (INV : (mdp_ok m /\ mdp_rows (fun x => x <= 1) m) /\ (forall tr t, In (tr, t) set -> (0 < mdp_trace_prob m0 tr <-> 0 < mdp_trace_prob m tr))).
    { apply (bw_loop_inv (round_MDP p set) eps (fun x => (mdp_ok x /\ mdp_rows (fun v => v <= 1) x) /\ (forall tr t, In (tr, t) set -> (0 < mdp_trace_prob m0 tr <-> 0 < mdp_trace_prob x tr)))) in B; [exact B| |].
      - intros x x' l [[Ok1 S1] P1] Er.
        destruct (C40_mdp_round_likelihood x x' p set l (proj1 Ok1) (proj2 Ok1) S1 HT AS Er) as (_ & _ & Ps).
        split; [apply (mdp_round_sub x set p x' l Ok1 S1 HT Er)|]. intros tr t I. rewrite (P1 tr t I). apply (Ps tr t I).
      - split; [split; [split; assumption|exact S]|]. tauto. }
    destruct INV as [[[W' N'] S'] P]. intros tr t I Z. specialize (P tr t I). rewrite Z in P.
    destruct (mdp_prob_nonneg m tr W' N') as [Q|Q]; [apply P in Q; lra|symmetry; exact Q].
Qed.

Theorem C132_MDP_unusable_refuted : forall (eqe : pv R -> pv R -> bool) T ts n (ri : bool) dr name lo hi loop nd processes eps max_it,
  decides_eq eqe -> good_actions T ts -> (0 < n)%nat -> good_drawn_mdp n T dr -> (1 <= max_it)%nat ->
  (exists l, NoDup l /\ (forall x, In x l -> occurs (labels_of T) x) /\ (n < length l)%nat) \/
  (ri = false /\ exists a x t b y u, In ((a, x) :: t) T /\ In ((b, y) :: u) T /\ x <> y) ->
  exists w, In w T /\ forall result, fit_random eqe (UserSet (action_set T ts)) (Some n) ri lo hi loop nd name dr processes eps max_it = Ok result ->
    (1 < processes)%nat /\ exists m c ll st, result = (TheMDP m, c, ll, st) /\ mdp_trace_prob m (alt w) = 0.
Proof.
  intros eqe T ts n ri dr name lo hi loop nd p eps mx EQ GS Pn GD Hm BAD.
  destruct (fit_random_MDP eqe T ts n ri dr name lo hi loop nd EQ GS Pn GD) as (al & act & m0 & ND & A & NDa & Aa & E0 & W & NN & N & EA & RL & DI & Rows & Sup & FR).
  destruct GS as (L & Pz & _ & _). set (set := combine (map alt T) ts) in *.
  assert (HT : pos_times set) by (intros [tr t] I; apply in_combine_r in I; apply Pz, I).
  assert (AS : alternating_set set) by (intros tr t I; apply in_combine_l in I; apply in_map_iff in I as (w & <- & _); apply (alt_shape "init"%string w)).
  assert (R1 : mdp_rows (fun x => x <= 1) m0) by (intros s j Hs Hj; rewrite (Rows s j Hs Hj); lra).
  assert (BT : exists w, In w T /\ ~ 0 < mdp_trace_prob m0 (alt w)).
  { destruct BAD as [(l & NDl & Ol & Ll)|(-> & a & x & t & b & y & u & I & J & Nxy)].
    - assert (X : exists x, In x l /\ ~ In x (firstn n al)).
      { destruct (Forall_Exists_dec (fun x => In x (firstn n al)) (fun x => in_dec string_dec x (firstn n al)) l) as [F|F].
        - exfalso. assert (length l <= length (firstn n al))%nat by (apply NoDup_incl_length; [exact NDl|]; intros x I; rewrite Forall_forall in F; apply F, I).
          rewrite firstn_length in H. lia.
        - apply Exists_exists in F as (x & I & F). eauto. }
      destruct X as (x & Ix & Nx). specialize (Ol x Ix). apply occurs_map in Ol as (w & It & Jt). exists w. split; [exact It|]. intros H. apply (Sup w It) in H as [H _]. apply Nx, H, Jt.
    - destruct (String.string_dec x (nth 0 al EmptyString)) as [E|E].
      + exists ((b, y) :: u). split; [exact J|]. intros H. apply (Sup _ J) in H as [_ H]. destruct (H eq_refl) as [F|F]; [discriminate|]. cbn [map hd snd] in F. congruence.
      + exists ((a, x) :: t). split; [exact I|]. intros H. apply (Sup _ I) in H as [_ H]. destruct (H eq_refl) as [F|F]; [discriminate|]. cbn [map hd snd] in F. congruence. }
  destruct BT as (w & Iw & Nw). exists w. split; [exact Iw|]. intros result ER. rewrite FR in ER.
  destruct (bw_loop (round_MDP p set) eps mx None 0 m0) as [[[[m c] ll] st]|e] eqn:B; [|discriminate]. cbn [tag bind] in ER. injection ER as <-.
  assert (J : exists z, In (alt w, z) set).
  { apply (In_nth _ _ []) in Iw as (i & Li & Ei). exists (nth i ts 0%Z). unfold set.
    replace (alt w) with (nth i (map alt T) (alt [])) by (rewrite (map_nth alt), Ei; reflexivity).
    rewrite <- combine_nth by (rewrite map_length; lia). apply nth_In. rewrite combine_length, map_length. lia. }
  destruct J as (z & J).
  assert (Z : mdp_trace_prob m0 (alt w) = 0) by (destruct (mdp_prob_nonneg m0 (alt w) W NN) as [Q|Q]; [contradiction|symmetry; exact Q]).
  destruct (mdp_impossible_stays p set eps mx m0 m c ll st W NN R1 HT AS Hm ltac:(exists (alt w), z; split; [exact J|exact Z]) B) as [Hp H].
  split; [exact Hp|]. exists m, c, ll, st. split; [reflexivity|]. apply (H _ z J Z).
Qed.
Print Assumptions C132_MDP_unusable_refuted.

(** ** Instances *)
Definition pvR_eqb (a b : pv R) : bool :=
  match a, b with
  | VStr s, VStr t => String.eqb s t
  | VFlt x, VFlt y => if Req_EM_T x y then true else false
  | VVec l, VVec k => if list_eq_dec Req_EM_T l k then true else false
  | VInt i, VInt j => Z.eqb i j
  | _, _ => false
  end.
Lemma pvR_eqb_eq : decides_eq pvR_eqb.
Proof.
  intros [s|x|l|i] [t|y|k|j]; cbn; try (split; [discriminate|intros H; discriminate H]).
  - rewrite String.eqb_eq. split; congruence.
  - destruct (Req_EM_T x y); split; congruence.
  - destruct (list_eq_dec Req_EM_T l k); split; congruence.
  - rewrite Z.eqb_eq. split; congruence.
Qed.
Lemma two_labels T : (forall x, occurs T x -> In x ["a"; "b"]%string) -> at_most 2 T.
Proof. intros H l ND O. change 2%nat with (length ["a"; "b"]%string). apply NoDup_incl_length; [exact ND|]. intros x I. apply H, O, I. Qed.
Lemma some_label T x : occurs T x -> forall al, NoDup al -> (forall y, In y al <-> occurs T y) -> (0 < length al)%nat.
Proof. intros O al _ A. apply A in O. destruct al; [destruct O|cbn; lia]. Qed.
Definition ex_dr (k : nat) : drawn R := mkDrawn (fun i => if Nat.eqb i 2 then [3; 7]%Z else repeat 5%Z k) (fun _ _ => [3; 7]%Z) (fun _ => O) (fun _ => 2%Z) (fun _ _ => (0, 1)).
Ltac draws := split; [reflexivity|]; cbn [In repeat]; intros ? ?; lia.

Example C130_instance : exists m c ll N, forall max_it, (N <= max_it)%nat ->
  fit_random pvR_eqb (UserSet (label_set [["a"; "b"; "b"]; ["b"]]%string [1; 2]%Z)) (Some 2%nat) true None None false None "m" (ex_dr 2) 1 (1 / 100) max_it = Ok (TheMC m, c, Some ll, true).
Proof.
  destruct (C130_MC pvR_eqb [] [["a"; "b"; "b"]; ["b"]]%string [1; 2]%Z 2 (ex_dr 2) "m" None None false None 1 (1 / 100) pvR_eqb_eq) as (m0 & m & c & ll & N & H & _).
  - left. reflexivity.
  - split; [reflexivity|]. split; [intros z I; cbn in I; lia|]. split; [exists ["b"]%string; split; [right; left; reflexivity|discriminate]|].
    intros t I J. cbn in I. destruct I as [<-|[<-|[]]]; cbn in J; intuition discriminate.
  - lia.
  - apply two_labels. intros x (t & I & J). cbn in I. destruct I as [<-|[<-|[]]]; cbn in *; intuition auto.
  - split.
    + intros i Hi. cbn [ex_dr dr_row]. destruct (Nat.eqb i 2); draws.
    + intros al ND A k. cbn [ex_dr dr_extra]. refine (some_label _ "b"%string _ al ND A). exists ["b"]%string. cbn. auto.
  - lra.
  - exists m, c, ll, N. exact H.
Qed.
Definition ex_timed : list (list string * list R) := [(["a"; "a"]%string, [1; 2]); (["b"]%string, [3])].
Lemma ex_timed_good : good_timed ex_timed [1; 1]%Z.
Proof.
  split; [discriminate|]. split; [reflexivity|]. split; [intros z I; cbn in I; lia|].
  intros w d I. cbn in I. destruct I as [I|[I|[]]]; injection I as <- <-; (split; [discriminate|]; split; [reflexivity|]; split; [intros x J; cbn in J|intros J; cbn in J; intuition discriminate]).
  - destruct J as [<-|[<-|[]]]; lra.
  - destruct J as [<-|[]]; lra.
Qed.
Lemma ex_timed_drawn (loop : bool) : good_drawn_ct 2 loop 1 5 (map fst ex_timed) (ex_dr (if loop then 2 else 1)).
Proof.
  split; [intros i Hi; cbn [ex_dr dr_row]; destruct (Nat.eqb_spec i 2); [lia|]; destruct loop; draws|]. split; [cbn; draws|]. split; [intros i; cbn; lia|].
  intros al ND A k. cbn [ex_dr dr_extra]. refine (some_label _ "b"%string _ al ND A). exists ["b"]%string. cbn. auto.
Qed.
Example C131_instance : exists m c ll N, forall max_it, (N <= max_it)%nat ->
  fit_random pvR_eqb (UserSet (timed_label_set ex_timed [1; 1]%Z)) (Some 2%nat) true (Some 1%Z) (Some 5%Z) true None "m" (ex_dr 2) 1 (1 / 100) max_it = Ok (TheCTMC m, c, Some ll, true).
Proof.
  destruct (C131_CTMC pvR_eqb ex_timed [1; 1]%Z 2 (ex_dr 2) "m" 1 5 None 1 (1 / 100) pvR_eqb_eq ex_timed_good) as (m0 & m & c & ll & N & H & _).
  - lia.
  - apply two_labels. intros x (t & I & J). cbn in I. destruct I as [<-|[<-|[]]]; cbn in *; intuition auto.
  - lia.
  - apply (ex_timed_drawn true).
  - lra.
  - exists m, c, ll, N. exact H.
Qed.
(** The same traces with the default value of self_loop. *)
Example C131_instance_refuted : forall result max_it, (1 <= max_it)%nat ->
  fit_random pvR_eqb (UserSet (timed_label_set ex_timed [1; 1]%Z)) (Some 2%nat) true (Some 1%Z) (Some 5%Z) false None "m" (ex_dr 1) 1 (1 / 100) max_it <> Ok result.
Proof.
  intros result mx Hm E.
  destruct (C131_CTMC_default_refuted pvR_eqb ex_timed [1; 1]%Z 2 (ex_dr 1) "m" 1 5 None 1 (1 / 100) mx [] "a" [] [1; 2] pvR_eqb_eq ex_timed_good) with (result := result) as (F & _); try assumption; try lia.
  - exists ["a"; "b"]%string. split; [repeat constructor; cbn; intuition discriminate|]. split; [|cbn; lia].
    intros x [<-|[<-|[]]]; [exists ["a"; "a"]%string|exists ["b"]%string]; cbn; auto.
  - apply (ex_timed_drawn false).
  - left. reflexivity.
Qed.
Definition ex_acts : list (list (string * string)) := [[("x", "a"); ("y", "b")]; [("y", "b")]]%string.
Lemma ex_acts_good : good_actions ex_acts [1; 2]%Z.
Proof.
  split; [reflexivity|]. split; [intros z I; cbn in I; lia|]. split; [exists [("y", "b")]%string; split; [right; left; reflexivity|discriminate]|].
  intros w I J. cbn in I. destruct I as [<-|[<-|[]]]; cbn in J; intuition discriminate.
Qed.
Example C132_instance : exists m c ll N, forall max_it, (N <= max_it)%nat ->
  fit_random pvR_eqb (UserSet (action_set ex_acts [1; 2]%Z)) (Some 2%nat) true None None false None "m" (ex_dr 2) 3 (1 / 100) max_it = Ok (TheMDP m, c, Some ll, true).
Proof.
  destruct (C132_MDP pvR_eqb ex_acts [1; 2]%Z 2 (ex_dr 2) "m" None None false None 3 (1 / 100) pvR_eqb_eq ex_acts_good) as (m0 & m & c & ll & N & H & _).
  - lia.
  - apply two_labels. intros x (t & I & J). cbn in I. destruct I as [<-|[<-|[]]]; cbn in *; intuition auto.
  - split; [intros s a Hs; cbn; draws|]. intros al ND A k. cbn [ex_dr dr_extra]. refine (some_label _ "b"%string _ al ND A). exists ["b"]%string. cbn. auto.
  - lra.
  - exists m, c, ll, N. exact H.
Qed.
(** One state is not enough for two labels; random_initial_state = False is not
    enough for the first labels a and b. *)
Example C130_C132_instance_refuted : forall result max_it, (1 <= max_it)%nat ->
  fit_random pvR_eqb (UserSet (action_set ex_acts [1; 2]%Z)) (Some 2%nat) false None None false None "m" (ex_dr 2) 1 (1 / 100) max_it <> Ok result /\
  fit_random pvR_eqb (UserSet (label_set [["a"; "b"; "b"]; ["b"]]%string [1; 2]%Z)) (Some 1%nat) true None None false None "m"
    (mkDrawn (fun _ => [1%Z]) (fun _ _ => []) (fun _ => O) (fun _ => 0%Z) (fun _ _ => (0, 1))) 1 (1 / 100) max_it <> Ok result.
Proof.
  intros result mx Hm. split; intros E.
  - destruct (C132_MDP_unusable_refuted pvR_eqb ex_acts [1; 2]%Z 2 false (ex_dr 2) "m" None None false None 1 (1 / 100) mx pvR_eqb_eq ex_acts_good) as (w & _ & H); try assumption; try lia.
    + split; [intros s a Hs; cbn; draws|]. intros al ND A k. cbn [ex_dr dr_extra]. refine (some_label _ "b"%string _ al ND A). exists ["b"]%string. cbn. auto.
    + right. split; [reflexivity|]. exists "x"%string, "a"%string, [("y", "b")]%string, "y"%string, "b"%string, []. cbn. split; [auto|]. split; [auto|discriminate].
    + destruct (H result E) as [F _]. lia.
  - destruct (C130_MC_unusable_refuted pvR_eqb [] [["a"; "b"; "b"]; ["b"]]%string [1; 2]%Z 1 true (mkDrawn (fun _ => [1%Z]) (fun _ _ => []) (fun _ => O) (fun _ => 0%Z) (fun _ _ => (0, 1))) "m" None None false None 1 (1 / 100) mx pvR_eqb_eq) as (w & _ & H); try assumption; try lia.
    + left. reflexivity.
    + split; [reflexivity|]. split; [intros z I; cbn in I; lia|]. split; [exists ["b"]%string; split; [right; left; reflexivity|discriminate]|].
      intros t I J. cbn in I. destruct I as [<-|[<-|[]]]; cbn in J; intuition discriminate.
    + split; [intros i Hi; cbn; draws|]. intros al ND A k. cbn. refine (some_label _ "b"%string _ al ND A). exists ["b"]%string. cbn. auto.
    + left. exists ["a"; "b"]%string. split; [repeat constructor; cbn; intuition discriminate|]. split; [|cbn; lia].
      intros x [<-|[<-|[]]]; [exists ["a"; "b"; "b"]%string|exists ["b"]%string]; cbn; auto.
    + destruct (H result E) as [F _]. lia.
Qed.
