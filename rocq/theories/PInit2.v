(** Theorem C130: fit of a number of states, from the training set to the result. *)
From Coq Require Import String ZArith Bool Reals List Lra Lia.
From Verif Require Import Num Py SNum LSum SPath LPath MTools MSet SSet LSet MModels LBW SBW SLik MCtor SCtor LCtor PCtor LRun PRun MRandom PRandom MLik MBW LBWMC LBWLoop LLik2 MBWObj MPrep PPrep MInit LInit PInit PBWMC PLik PBWObj PPool.
Import ListNotations.
Local Open Scope R_scope.

(** A training set of label sequences, as a Set of the library. *)
Definition label_set (T : list (list string)) (ts : list Z) : tset (list (pv R)) := mkset (map (map VStr) T) ts (Some 0%Z).
(** What the user is asked for: multiplicities, at least one label, 'init' used
    only by the library. *)
Definition good_set (T : list (list string)) (ts : list Z) : Prop :=
  length ts = length T /\ (forall z, In z ts -> (0 < z)%Z) /\ (exists t, In t T /\ t <> []) /\ forall t, In t T -> ~ In "init"%string t.
Definition occurs (T : list (list string)) (x : string) : Prop := exists t, In t T /\ In x t.
(** At most n labels. *)
Definition at_most (n : nat) (T : list (list string)) : Prop := forall l, NoDup l -> (forall x, In x l -> occurs T x) -> (length l <= n)%nat.
(** The random values are those numpy and random can return. *)
Definition good_drawn (n : nat) (T : list (list string)) (dr : drawn R) : Prop :=
  (forall i, (i <= n)%nat -> good_draws n (dr_row dr i)) /\
  forall al, NoDup al -> (forall x, In x al <-> occurs T x) -> forall k, (dr_extra dr k < length al)%nat.

(** The traces may be given with or without 'init' in front. *)
Lemma prepare_labels (eqe : pv R -> pv R -> bool) pre T ts : decides_eq eqe -> pre = [] \/ pre = ["init"%string] -> good_set T ts ->
  exists al, getTrainingSet eqe None (UserSet (label_set (map (app pre) T) ts)) =
    Ok (mkPrep (label_set (map (cons "init"%string) T) ts) (Some (map VStr al)) (UserSet (label_set (map (cons "init"%string) T) ts))) /\
    NoDup al /\ (forall x, In x al <-> occurs T x).
Proof.
  intros EQ HP (L & P & NE & NI). rewrite getTrainingSet_set.
  destruct (getAlphabet_untimed eqe EQ (label_set (map (app pre) T) ts) eq_refl) as (al0 & E & ND & A).
  unfold label_set at 1 2 3. cbn [ty optZ_eqb Z.eqb negb andb]. rewrite E. cbn [bind].
  assert (A' : forall x, In x al0 <-> exists t, In t T /\ In x (map VStr (pre ++ t))).
  { intros x. rewrite A. cbn [label_set seqs]. split.
    - intros (t & I & J). rewrite map_map in I. apply in_map_iff in I as (u & <- & I). exists u. auto.
    - intros (t & I & J). exists (map VStr (pre ++ t)). split; [|exact J]. rewrite map_map. apply in_map_iff. exists t. auto. }
  assert (S : forall x, In x al0 -> exists s, x = VStr s).
  { intros x I. apply A' in I as (t & _ & J). apply in_map_iff in J as (s & <- & _). eauto. }
  destruct HP as [->| ->].
  - assert (M : memb eqe (VStr "init") al0 = false).
    { destruct (memb eqe (VStr "init") al0) eqn:M; [|reflexivity]. apply (memb_In eqe EQ) in M. apply A' in M as (t & I & J). cbn [app] in J. apply In_VStr in J. destruct (NI t I J). }
    rewrite M. cbn [negb]. destruct (all_strings al0 S) as (al & ->). exists al. split.
    + unfold label_set. cbn [seqs times ty]. rewrite !map_map. reflexivity.
    + split; [apply (NoDup_unmap al ND)|]. intros x. rewrite <- (In_VStr (F:=R) x al), A'. cbn [app]. unfold occurs. split; intros (t & I & J); exists t; (split; [exact I|]); apply (In_VStr (F:=R)) in J || apply In_VStr; exact J.
  - assert (M : memb eqe (VStr "init") al0 = true).
    { apply (memb_In eqe EQ), A'. destruct NE as (t & I & _). exists t. split; [exact I|left; reflexivity]. }
    rewrite M. cbn [negb]. destruct (all_strings (remove_first eqe (VStr "init") al0)) as (al & Eal).
    { intros x I. apply (remove_first_notin eqe EQ _ _ ND) in I. apply S, I. }
    exists al. rewrite Eal. split; [reflexivity|]. split; [apply (NoDup_unmap (F:=R)); rewrite <- Eal; apply remove_first_nodup, ND|].
    intros x. rewrite <- (In_VStr (F:=R) x al), <- Eal, (remove_first_notin eqe EQ _ _ ND), A'. unfold occurs. split.
    + intros [(t & I & J) N]. exists t. split; [exact I|]. cbn [app map] in J. destruct J as [J|J]; [congruence|]. apply In_VStr in J. exact J.
    + intros (t & I & J). split; [exists t; split; [exact I|right; apply In_VStr; exact J]|]. intros F. injection F as ->. apply (NI t I J).
Qed.

Lemma archimed_nat x : exists N, x < INR N.
Proof. exists (Z.to_nat (up x)). destruct (archimed x) as [H _]. apply Rlt_le_trans with (1 := H). rewrite INR_IZR_INZ. apply IZR_le. lia. Qed.
Lemma firstn_at_most n al T : NoDup al -> (forall x, In x al <-> occurs T x) -> at_most n T -> firstn n al = al.
Proof. intros ND A H. apply firstn_all2. apply H; [exact ND|]. intros x I. apply A, I. Qed.

(** Learning a Markov chain from label sequences and a number of states not less
    than the number of labels: it succeeds and stops, for every number of
    processes; the result is a Markov chain with this number of states besides
    the initial one, labelled with the labels of the set; every training sequence
    is possible in it, and its likelihood is at least that of the random chain
    learning started from. *)
Theorem C130_MC : forall (eqe : pv R -> pv R -> bool) pre T ts n dr name lo hi loop nd processes eps,
  decides_eq eqe -> pre = [] \/ pre = ["init"%string] -> good_set T ts -> (0 < n)%nat -> at_most n T -> good_drawn n T dr -> 0 < eps ->
  exists m0 m c ll N,
    (forall max_it, (N <= max_it)%nat ->
       fit_random eqe (UserSet (label_set (map (app pre) T) ts)) (Some n) true lo hi loop nd name dr processes eps max_it = Ok (TheMC m, c, Some ll, true)) /\
    wf_mc m /\ stochastic (mc_mat m) /\ is_dist (mc_ini m) /\ mc_n m = S n /\
    nth n (mc_lab m) EmptyString = "init"%string /\
    (forall x, (exists s, (s < n)%nat /\ nth s (mc_lab m) EmptyString = x) <-> occurs T x) /\
    (forall t, In t T -> 0 < mc_trace_prob m ("init"%string :: t)) /\
    (exists al, NoDup al /\ (forall x, In x al <-> occurs T x) /\ MC_random n al true (dr_row dr) (dr_extra dr) name = Ok m0) /\
    set_ll (mc_trace_prob m0) (combine (map (cons "init"%string) T) ts) <= set_ll (mc_trace_prob m) (combine (map (cons "init"%string) T) ts).
Proof.
  intros eqe pre T ts n dr name lo hi loop nd p eps EQ HP GS Pn AM [GD GX] He.
  destruct (prepare_labels eqe pre T ts EQ HP GS) as (al & EP & ND & A). destruct GS as (L & Pz & (t0 & I0 & N0) & NI).
  assert (NEal : al <> []). { destruct t0 as [|x t0]; [congruence|]. assert (I : In x al) by (apply A; exists (x :: t0); split; [exact I0|left; reflexivity]). intros ->. destruct I. }
  assert (NIal : ~ In "init"%string al) by (intros I; apply A in I as (t & I & J); apply (NI t I J)).
  destruct (C129_MC n al true (dr_row dr) (dr_extra dr) name Pn NEal NIal (GX al ND A) GD) as (m0 & E0 & W & S & D & N & RL & Sup).
  set (set := combine (map (cons "init"%string) T) ts).
  assert (HT : pos_times set) by (intros [tr t] I; apply in_combine_r in I; apply Pz, I).
  assert (POS : forall tr t, In (tr, t) set -> 0 < mc_trace_prob_move m0 tr).
  { intros tr t I. apply in_combine_l in I. apply in_map_iff in I as (u & <- & I). rewrite move_trace by (try apply W; try apply S; discriminate || exact W).
    apply Sup. split; [|discriminate]. intros x J. rewrite (firstn_at_most n al T ND A AM). apply A. exists u. auto. }
  assert (EX : exists tr t, In (tr, t) set /\ 0 < mc_trace_prob_move m0 tr).
  { apply (In_nth _ _ []) in I0 as (i & Li & Ei). exists (nth i (map (cons "init"%string) T) []), (nth i ts 0%Z).
    assert (J : In (nth i (map (cons "init"%string) T) [], nth i ts 0%Z) set).
    { unfold set. rewrite <- combine_nth by (rewrite map_length; lia). apply nth_In. rewrite combine_length, map_length. lia. }
    split; [exact J|]. apply (POS _ _ J). }
  destruct (archimed_nat (- set_ll (mc_trace_prob_move m0) set / eps)) as (N' & HN').
  assert (HN : - set_ll (mc_trace_prob_move m0) set < INR N' * eps).
  { apply (Rmult_lt_compat_r eps) in HN'; [|exact He]. unfold Rdiv in HN'. rewrite Rmult_assoc, Rinv_l, Rmult_1_r in HN' by lra. exact HN'. }
  assert (Sub : substochastic (mc_mat m0)) by (split; [apply S|intros r I; rewrite (proj2 S r I); lra]).
  destruct (C42_mc_terminates m0 p set eps N' W Sub ltac:(rewrite (proj2 D); lra) HT He EX (or_intror POS) HN) as (m & c & ll & Hc & B).
  exists m0, m, c, ll, (Datatypes.S N').
  pose proof (B (Datatypes.S N') (le_n _)) as B0.
  destruct (C34_mc_learning_stochastic m0 m p _ c set eps (Some ll) true W S HT B0) as (W' & S' & N1 & Lb & In' & _).
  split.
  { intros mx Hm. unfold fit_random. rewrite EP. cbn [bind]. unfold createInitialModel. cbn [pr_set ty label_set pr_alphabet]. rewrite strings_map. cbn [bind]. rewrite E0. cbn [bind].
    unfold job_of. cbn [seqs times label_set]. rewrite mmap_strings. cbn [bind].
    change new_object with (after []). rewrite C117_reused_object; [|exact I|left; reflexivity]. cbn [fit_new]. fold set. rewrite (B mx Hm). reflexivity. }
  split; [exact W'|]. split; [exact S'|]. split; [rewrite In'; exact D|]. split; [congruence|]. rewrite Lb.
  split; [apply RL|]. split.
  { intros x. rewrite (random_label_set n al (mc_lab m0) RL x), (firstn_at_most n al T ND A AM). apply A. }
  assert (INV : (mc_ok m /\ (forall r, In r (mc_mat m) -> rsum r = 1)) /\ (forall tr t, In (tr, t) set -> 0 < mc_trace_prob_move m tr) /\
                set_ll (mc_trace_prob_move m0) set <= set_ll (mc_trace_prob_move m) set).
  { apply (bw_loop_inv (round_MC p set) eps (fun x => (mc_ok x /\ (forall r, In r (mc_mat x) -> rsum r = 1)) /\ (forall tr t, In (tr, t) set -> 0 < mc_trace_prob_move x tr) /\
                set_ll (mc_trace_prob_move m0) set <= set_ll (mc_trace_prob_move x) set)) in B0; [exact B0| |].
    - intros x x' l [[Ok1 S1] [P1 M1]] Er.
      destruct (round_mc_mono x set p x' l Ok1 ltac:(intros r I; rewrite (S1 r I); lra) HT Er) as (_ & M2 & Ps).
      split; [split; [apply (round_mc_ok x set p x' l Ok1 Er HT)|apply (row_rule x set p x' l (fun v => v = 1) Ok1 Er); auto]|].
      split; [intros tr t I; apply (Ps tr t I), (P1 tr t I)|lra].
    - split; [split; [split; [exact W|apply S]|apply S]|]. split; [exact POS|lra]. }
  destruct INV as (_ & P' & M').
  split.
  { intros t I. rewrite <- (move_trace m) by (try exact W'; try apply S'; discriminate). apply (In_nth _ _ []) in I as (i & Li & Ei).
    apply (P' _ (nth i ts 0%Z)). unfold set. replace ("init"%string :: t) with (nth i (map (cons "init"%string) T) []).
    - rewrite <- combine_nth by (rewrite map_length; lia). apply nth_In. rewrite combine_length, map_length. lia.
    - rewrite (nth_indep _ [] ("init"%string :: [])) by (rewrite map_length; exact Li). rewrite (map_nth (cons "init"%string)). rewrite Ei. reflexivity. }
  split; [exists al; auto|].
  assert (Ne : forall tr t, In (tr, t) set -> tr <> []) by (intros tr t I; apply in_combine_l in I; apply in_map_iff in I as (u & <- & _); discriminate).
  rewrite (set_ll_ext (mc_trace_prob m0) (mc_trace_prob_move m0)) by (intros tr t I; symmetry; apply move_trace; [exact W|apply S|eauto]).
  rewrite (set_ll_ext (mc_trace_prob m) (mc_trace_prob_move m)) by (intros tr t I; symmetry; apply move_trace; [exact W'|apply S'|eauto]).
  exact M'.
Qed.
Print Assumptions C130_MC.

(** Fit is Baum-Welch started from the random chain. *)
Lemma fit_random_MC (eqe : pv R -> pv R -> bool) pre T ts n ri dr name lo hi loop nd :
  decides_eq eqe -> pre = [] \/ pre = ["init"%string] -> good_set T ts -> (0 < n)%nat -> good_drawn n T dr ->
  exists al m0, NoDup al /\ (forall x, In x al <-> occurs T x) /\ MC_random n al ri (dr_row dr) (dr_extra dr) name = Ok m0 /\
    wf_mc m0 /\ stochastic (mc_mat m0) /\
    (forall t, 0 < mc_trace_prob m0 ("init"%string :: t) <->
      (forall x, In x t -> In x (firstn n al)) /\ (ri = false -> t = [] \/ hd EmptyString t = nth 0 al EmptyString)) /\
    forall p eps mx, fit_random eqe (UserSet (label_set (map (app pre) T) ts)) (Some n) ri lo hi loop nd name dr p eps mx =
      tag TheMC (bw_loop (round_MC p (combine (map (cons "init"%string) T) ts)) eps mx None 0 m0).
Proof.
  intros EQ HP GS Pn [GD GX]. destruct (prepare_labels eqe pre T ts EQ HP GS) as (al & EP & ND & A). destruct GS as (L & Pz & (t0 & I0 & N0) & NI).
  assert (NEal : al <> []). { destruct t0 as [|x t0]; [congruence|]. assert (I : In x al) by (apply A; exists (x :: t0); split; [exact I0|left; reflexivity]). intros ->. destruct I. }
  assert (NIal : ~ In "init"%string al) by (intros I; apply A in I as (t & I & J); apply (NI t I J)).
  destruct (C129_MC n al ri (dr_row dr) (dr_extra dr) name Pn NEal NIal (GX al ND A) GD) as (m0 & E0 & W & S & D & N & RL & Sup).
  exists al, m0. repeat (split; [assumption|]). intros p eps mx. unfold fit_random. rewrite EP. cbn [bind]. unfold createInitialModel. cbn [pr_set ty label_set pr_alphabet]. rewrite strings_map. cbn [bind]. rewrite E0. cbn [bind].
  unfold job_of. cbn [seqs times label_set]. rewrite mmap_strings. cbn [bind].
  change new_object with (after []). rewrite C117_reused_object; [reflexivity|exact I|left; reflexivity].
Qed.

(** An impossible sequence stays impossible, and with one process fit raises. *)
Lemma impossible_stays (p : nat) set eps mx m0 m c ll st : wf_mc m0 -> stochastic (mc_mat m0) -> pos_times set -> (1 <= mx)%nat ->
  (exists tr t, In (tr, t) set /\ tr <> [] /\ mc_trace_prob m0 tr = 0) -> bw_loop (round_MC p set) eps mx None 0 m0 = Ok (m, c, ll, st) ->
  (1 < p)%nat /\ forall tr t, In (tr, t) set -> tr <> [] -> mc_trace_prob m0 tr = 0 -> mc_trace_prob m tr = 0.
Proof.
  intros W S HT Hm (tr0 & z0 & I0 & N0 & Z0) B. split.
  - destruct (Nat.lt_ge_cases 1 p) as [|Hp]; [assumption|]. exfalso. destruct mx as [|mx]; [lia|]. cbn [bw_loop] in B.
    rewrite (C44_mc_one_process_fails m0 p set W Hp) in B; [discriminate|]. exists tr0, z0. split; [exact I0|]. rewrite move_trace; [exact Z0|exact W|apply S|exact N0].
  - assert (INV : (mc_ok m /\ (forall r, In r (mc_mat m) -> rsum r = 1)) /\ (forall tr t, In (tr, t) set -> (0 < mc_trace_prob_move m0 tr <-> 0 < mc_trace_prob_move m tr))).
    { apply (bw_loop_inv (round_MC p set) eps (fun x => (mc_ok x /\ (forall r, In r (mc_mat x) -> rsum r = 1)) /\ (forall tr t, In (tr, t) set -> (0 < mc_trace_prob_move m0 tr <-> 0 < mc_trace_prob_move x tr)))) in B; [exact B| |].
      - intros x x' l [[Ok1 S1] P1] Er.
        destruct (round_mc_mono x set p x' l Ok1 ltac:(intros r I; rewrite (S1 r I); lra) HT Er) as (_ & _ & Ps).
        split; [split; [apply (round_mc_ok x set p x' l Ok1 Er HT)|apply (row_rule x set p x' l (fun v => v = 1) Ok1 Er); auto]|].
        intros tr t I. rewrite (P1 tr t I). apply (Ps tr t I).
      - split; [split; [split; [exact W|apply S]|apply S]|]. tauto. }
    destruct INV as [[[W' N'] S'] P]. intros tr t I NE Z. specialize (P tr t I). rewrite (move_trace m0) in P by (try exact W; try apply S; exact NE). rewrite (move_trace m) in P by assumption.
    assert (Q : 0 <= mc_trace_prob m tr).
    { rewrite <- (move_trace m) by assumption. unfold mc_trace_prob_move, trace_prob. apply sumL_nonneg. intros y J. apply Rmult_le_pos; [unfold vecR; destruct (nth_in_or_default (hd O y) (mc_ini m) 0) as [K|F]; [apply W', K|rewrite F; lra]|].
      apply (path_weight_nonneg (mc_n m)); [apply (paths_range _ _ _ J)| |].
      - intros A i j K _ _. apply repeat_spec in K as ->. apply matR_nonneg, N'.
      - intros b i K _. apply in_app_or in K as [K|[<-|[]]]; [|lra]. apply in_map_iff in K as (? & <- & _). apply is_label_nonneg. }
    rewrite Z in P. destruct Q as [Q|Q]; [apply P in Q; lra|symmetry; exact Q].
Qed.

(** With fewer states than labels, or with random_initial_state = False and
    sequences that do not all start with the same label, some training sequence
    is impossible: fit raises with one process, and with several processes
    returns a chain in which this sequence is impossible. *)
Theorem C130_MC_unusable_refuted : forall (eqe : pv R -> pv R -> bool) pre T ts n (ri : bool) dr name lo hi loop nd processes eps max_it,
  decides_eq eqe -> pre = [] \/ pre = ["init"%string] -> good_set T ts -> (0 < n)%nat -> good_drawn n T dr -> (1 <= max_it)%nat ->
  (exists l, NoDup l /\ (forall x, In x l -> occurs T x) /\ (n < length l)%nat) \/
  (ri = false /\ exists x t y u, In (x :: t) T /\ In (y :: u) T /\ x <> y) ->
  exists t, In t T /\ forall result, fit_random eqe (UserSet (label_set (map (app pre) T) ts)) (Some n) ri lo hi loop nd name dr processes eps max_it = Ok result ->
    (1 < processes)%nat /\ exists m c ll st, result = (TheMC m, c, ll, st) /\ mc_trace_prob m ("init"%string :: t) = 0.
Proof.
  intros eqe pre T ts n ri dr name lo hi loop nd p eps mx EQ HP GS Pn GD Hm BAD.
  destruct (fit_random_MC eqe pre T ts n ri dr name lo hi loop nd EQ HP GS Pn GD) as (al & m0 & ND & A & _ & W & S & Sup & FR).
  destruct GS as (L & Pz & _ & _). set (set := combine (map (cons "init"%string) T) ts) in *.
  assert (HT : pos_times set) by (intros [tr t] I; apply in_combine_r in I; apply Pz, I).
  assert (BT : exists t, In t T /\ ~ 0 < mc_trace_prob m0 ("init"%string :: t)).
  { destruct BAD as [(l & NDl & Ol & Ll)|(-> & x & t & y & u & I & J & N)].
    - assert (X : exists x, In x l /\ ~ In x (firstn n al)).
      { destruct (Forall_Exists_dec (fun x => In x (firstn n al)) (fun x => in_dec string_dec x (firstn n al)) l) as [F|F].
        - exfalso. assert (length l <= length (firstn n al))%nat by (apply NoDup_incl_length; [exact NDl|]; intros x I; rewrite Forall_forall in F; apply F, I).
          rewrite firstn_length in H. lia.
        - apply Exists_exists in F as (x & I & F). eauto. }
      destruct X as (x & Ix & Nx). destruct (Ol x Ix) as (t & It & Jt). exists t. split; [exact It|]. intros H. apply Sup in H as [H _]. apply Nx, H, Jt.
    - destruct (String.string_dec x (nth 0 al EmptyString)) as [E|E].
      + exists (y :: u). split; [exact J|]. intros H. apply Sup in H as [_ H]. destruct (H eq_refl) as [F|F]; [discriminate|]. cbn [hd] in F. congruence.
      + exists (x :: t). split; [exact I|]. intros H. apply Sup in H as [_ H]. destruct (H eq_refl) as [F|F]; [discriminate|]. cbn [hd] in F. congruence. }
  destruct BT as (t & It & Nt). exists t. split; [exact It|]. intros result ER. rewrite FR in ER.
  destruct (bw_loop (round_MC p set) eps mx None 0 m0) as [[[[m c] ll] st]|e] eqn:B; [|discriminate]. cbn [tag bind] in ER. injection ER as <-.
  assert (J : exists z, In ("init"%string :: t, z) set).
  { apply (In_nth _ _ []) in It as (i & Li & Ei). exists (nth i ts 0%Z). unfold set. replace ("init"%string :: t) with (nth i (map (cons "init"%string) T) []).
    - rewrite <- combine_nth by (rewrite map_length; lia). apply nth_In. rewrite combine_length, map_length. lia.
    - rewrite (nth_indep _ [] ("init"%string :: [])) by (rewrite map_length; exact Li). rewrite (map_nth (cons "init"%string)). rewrite Ei. reflexivity. }
  assert (Z : mc_trace_prob m0 ("init"%string :: t) = 0).
  { assert (Q : 0 <= mc_trace_prob m0 ("init"%string :: t)).
    { unfold mc_trace_prob, trace_prob. apply sumL_nonneg. intros y Jy. apply Rmult_le_pos; [unfold vecR; destruct (nth_in_or_default (hd O y) (mc_ini m0) 0) as [K|F]; [apply W, K|rewrite F; lra]|].
      apply (path_weight_nonneg (mc_n m0)); [apply (paths_range _ _ _ Jy)| |].
      - intros B' i j K _ _. apply repeat_spec in K as ->. apply matR_nonneg, S.
      - intros b i K _. apply in_map_iff in K as (? & <- & _). apply is_label_nonneg. }
    destruct Q as [Q|Q]; [contradiction|symmetry; exact Q]. }
  destruct J as (z & J).
  destruct (impossible_stays p set eps mx m0 m c ll st W S HT Hm ltac:(exists ("init"%string :: t), z; split; [exact J|]; split; [discriminate|exact Z]) B) as [Hp H].
  split; [exact Hp|]. exists m, c, ll, st. split; [reflexivity|]. apply (H _ z J); [discriminate|exact Z].
Qed.
Print Assumptions C130_MC_unusable_refuted.
