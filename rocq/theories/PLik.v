(** Theorems C27-C32: likelihood of traces and sets of traces. *)
From Coq Require Import String ZArith Bool Reals List Lia Lra FunctionalExtensionality Permutation.
From Verif Require Import Num Py SNum SPath LSum MSet SSet LSet MModels MLik MBW LFB LEM SBW LBW LBWSet SLik LPath LLik LLik2.
Import ListNotations.
Local Open Scope R_scope.

(** One multiplicity per sequence, all at least 1, no empty sequence. *)
Definition usable {A} (s : tset (list A)) : Prop :=
  length (times s) = length (seqs s) /\ pos_set s /\ ~ In [] (seqs s).
Definition weighted {A} (s : tset A) : list (A * Z) := combine (seqs s) (times s).

Local Lemma ne_of {A} (s : tset (list A)) x : usable s -> In x (seqs s) -> x <> [].
Proof. intros [_ [_ N]] I E. subst. contradiction. Qed.

(** ** C27 *)

(** The chain's likelihood of a set is the average, over the traces, of the
    logarithm of the sum over all state paths. *)
Theorem C27_mc_logLikelihood : forall (m : mc R) (s : tset (list string)), wf_mc m -> usable s ->
  mc_logLikelihood m s = Ok (avg_ll (mc_trace_prob m) (weighted s)).
Proof.
  intros m s W U. apply multiproc_spec; [apply U|]. intros x I. apply mc_model_prob; [exact W|]. exact (ne_of s x U I).
Qed.
Print Assumptions C27_mc_logLikelihood.
Theorem C27_hmm_logLikelihood : forall (m : hmm R) (s : tset (list string)), wf_hmm m -> usable s ->
  hmm_logLikelihood m s = Ok (avg_ll (hmm_trace_prob m) (weighted s)).
Proof.
  intros m s W U. apply multiproc_spec; [apply U|]. intros x I. apply hmm_model_prob; [exact W|]. exact (ne_of s x U I).
Qed.
Print Assumptions C27_hmm_logLikelihood.
Theorem C27_ctmc_logLikelihood : forall (m : ctmc R) (s : tset (list string)), wf_ctmc m -> usable s ->
  ct_logLikelihood m s = Ok (avg_ll (ct_trace_prob m) (weighted s)).
Proof.
  intros m s W U. apply multiproc_spec; [apply U|]. intros x I. apply ct_model_prob; [exact W|]. exact (ne_of s x U I).
Qed.
Print Assumptions C27_ctmc_logLikelihood.
(** Gaussian outputs: d components, positive standard deviations. *)
Theorem C27_gohmm_logLikelihood : forall (m : gohmm R) (d : nat) (s : tset (list (list R))), wf_gohmm d m ->
  (forall st k, (st < go_n m)%nat -> (k < d)%nat -> 0 < stddev m st k) ->
  (forall tr o, In tr (seqs s) -> In o tr -> length o = d) -> usable s ->
  go_logLikelihood m s = Ok (avg_ll (go_trace_density m) (weighted s)).
Proof.
  intros m d s W P Hd U. apply multiproc_spec; [apply U|]. intros x I. apply (go_model_prob m d); [exact W|exact P| |exact (ne_of s x U I)].
  intros o Io. rewrite (Hd x o I Io). lia.
Qed.
Print Assumptions C27_gohmm_logLikelihood.

Definition nonneg_mdp (m : mdp R) : Prop := forall ra, In ra (mdp_mat m) -> nonneg_mat ra.
Lemma act_mat_nonneg (m : mdp R) a s s' : nonneg_mdp m -> 0 <= act_mat m a s s'.
Proof.
  intros N. unfold act_mat. apply Sum_nonneg. intros i _. destruct (String.eqb _ _); [|lra].
  destruct (nth_in_or_default s (mdp_mat m) []) as [I|E]; [|rewrite E; destruct i, s'; cbn; lra].
  destruct (nth_in_or_default i (nth s (mdp_mat m) []) []) as [I'|E]; [|rewrite E; destruct s'; cbn; lra].
  destruct (nth_in_or_default s' (nth i (nth s (mdp_mat m) []) []) 0) as [I2|E]; [|rewrite E; lra].
  exact (N _ I _ I' _ I2).
Qed.
Lemma vecR_nonneg v s : nonneg v -> 0 <= vecR v s.
Proof. intros N. unfold vecR. destruct (nth_in_or_default s v 0) as [I|E]; [exact (N _ I)|rewrite E; lra]. Qed.
Lemma matR_nonneg m s s' : nonneg_mat m -> 0 <= matR m s s'.
Proof.
  intros N. unfold matR. destruct (nth_in_or_default s m []) as [I|E]; [|rewrite E; destruct s'; cbn; lra].
  destruct (nth_in_or_default s' (nth s m []) 0) as [I'|E]; [exact (N _ I _ I')|rewrite E; lra].
Qed.
Lemma mdp_trace_prob_nonneg (m : mdp R) tr : nonneg_mdp m -> nonneg (mdp_ini m) -> Nat.odd (length tr) = true -> 0 <= mdp_trace_prob m tr.
Proof.
  intros N Ni Od. unfold mdp_trace_prob. apply trace_prob_nonneg.
  - intros. apply is_label_01.
  - apply Forall_forall. intros A I. apply in_map_iff in I. destruct I as [a [<- _]]. intros i j _ _. apply act_mat_nonneg; exact N.
  - intros i _. apply vecR_nonneg; exact Ni.
  - rewrite map_length. apply (pairs_evens tr Od).
Qed.

(** MDP: traces alternate observations and actions and end with an observation. *)
Theorem C27_mdp_logLikelihood : forall (m : mdp R) (s : tset (list string)), wf_mdp m -> nonneg_mdp m ->
  usable s -> seqs s <> [] -> (forall tr, In tr (seqs s) -> Nat.odd (length tr) = true) ->
  mdp_logLikelihood m s = Ok (avg_ll (mdp_trace_prob m) (weighted s)).
Proof.
  intros m s W N U NE Od. apply mdp_multiproc_spec; [apply U| |].
  - intros x I. apply mdp_prob_eq; auto.
  - intros x I. apply mdp_trace_prob_nonneg; [exact N|apply W|auto].
Qed.
Print Assumptions C27_mdp_logLikelihood.

(** Dwell times: one time between two observations.  When every trace is
    impossible or has density exactly 1 the method returns the constant -9999
    instead of the average. *)
Theorem C27_ctmc_timed_logLikelihood : forall (m : ctmc R) (s : list (timed * Z)), wf_ctmc m -> pos_times s ->
  (forall tr t, In (tr, t) s -> length (fst tr) = S (length (snd tr))) ->
  ((exists tr t, In (tr, t) s /\ 0 < ct_density m tr /\ ct_density m tr <> 1) ->
     ct_logLikelihood_timed m s = Ok (avg_ll (ct_density m) s)) /\
  ((forall tr t, In (tr, t) s -> ct_density m tr <= 0 \/ ct_density m tr = 1) ->
     ct_logLikelihood_timed m s = Ok (-9999)).
Proof.
  intros m s W Pt Hl. unfold ct_logLikelihood_timed.
  rewrite (mmap_ok _ (fun st => log_times (ct_density m (fst st)) (snd st))).
  2:{ intros [[obs ts] t] I. unfold ct_computeAlphas_timed. cbn [fst snd]. rewrite ct_prob_timed_eq; [reflexivity|exact W|exact (Hl _ _ I)]. }
  cbn [bind].
  assert (E : not_false (map (fun st => log_times (ct_density m (fst st)) (snd st)) s) = [] <->
    (forall tr t, In (tr, t) s -> ct_density m tr <= 0 \/ ct_density m tr = 1)).
  { clear - Pt. induction s as [|[tr t] s IH]; [split; [intros _ ? ? []|reflexivity]|]. cbn [map not_false flat_map fst snd].
    assert (Ht : (0 < t)%Z) by (exact (Pt (tr, t) (or_introl eq_refl))).
    specialize (IH (fun st I => Pt st (or_intror I))). unfold log_times at 1. nR.
    destruct (Rleb (ct_density m tr) 0) eqn:E0; cbn [app].
    - apply Rleb_true in E0. unfold not_false in IH. rewrite IH. split.
      + intros H tr' t' [Eq|I]; [injection Eq as <- <-; auto|exact (H _ _ I)].
      + intros H tr' t' I. apply (H tr' t'). right; exact I.
    - apply Rleb_false in E0. nR. destruct (Reqb (ln (ct_density m tr) * IZR t) 0) eqn:E1.
      + assert (D1 : ct_density m tr = 1).
        { apply Reqb_true in E1. apply Rmult_integral in E1. destruct E1 as [Z|Z].
          - rewrite <- ln_1 in Z. apply ln_inv in Z; lra.
          - apply eq_IZR_R0 in Z. lia. }
        cbn [app]. unfold not_false in IH. rewrite IH. split.
        * intros H tr' t' [Eq|I]; [injection Eq as <- <-; auto|exact (H _ _ I)].
        * intros H tr' t' I. apply (H tr' t'). right; exact I.
      + apply Reqb_false in E1. split; [discriminate|]. intros H. exfalso. destruct (H tr t (or_introl eq_refl)) as [Z|Z]; [lra|].
        rewrite Z, ln_1 in E1. apply E1. ring. }
  split.
  - intros [tr [t [I [P N1]]]]. destruct (not_false _) eqn:F.
    + exfalso. destruct (proj1 E eq_refl tr t I); lra.
    + rewrite <- F, nsum_not_false. reflexivity.
  - intros H. rewrite (proj2 E H). reflexivity.
Qed.
Print Assumptions C27_ctmc_timed_logLikelihood.

(** Example: a chain with three states. *)
Definition ex_mc : mc R := mkMC [[1/2; 1/2; 0]; [0; 1; 0]; [1/3; 2/3; 0]] ["a"; "b"; "init"]%string [0; 0; 1] "ex"%string.
Lemma ex_mc_wf : wf_mc ex_mc.
Proof.
  repeat split; cbn; auto.
  - intros r [<-|[<-|[<-|[]]]]; reflexivity.
  - intros x [<-|[<-|[<-|[]]]]; lra.
Qed.
Lemma ex_mc_stoch : stochastic (mc_mat ex_mc).
Proof.
  split.
  - intros r [<-|[<-|[<-|[]]]] x; cbn; intros [<-|[<-|[<-|[]]]]; lra.
  - intros r [<-|[<-|[<-|[]]]]; cbn; lra.
Qed.
Definition ex_set : tset (list string) := mkset [["init"; "a"; "b"]; ["init"; "b"]]%string [2; 1]%Z (Some 0%Z).
Example C27_instance : wf_mc ex_mc /\ usable ex_set /\
  mc_trace_prob ex_mc ["init"; "a"; "b"]%string = 1/6 /\
  mc_logLikelihood ex_mc ex_set = Ok ((2 * ln (1/6) + ln (2/3)) / 3).
Proof.
  assert (U : usable ex_set).
  { split; [reflexivity|]. split; [intros t [<-|[<-|[]]]; lia|]. cbn. intros [E|[E|[]]]; discriminate. }
  assert (P1 : mc_trace_prob ex_mc ["init"; "a"; "b"]%string = 1/6).
  { unfold mc_trace_prob, trace_prob, sumL. cbn. lra. }
  assert (P2 : mc_trace_prob ex_mc ["init"; "b"]%string = 2/3).
  { unfold mc_trace_prob, trace_prob, sumL. cbn. lra. }
  split; [exact ex_mc_wf|]. split; [exact U|]. split; [exact P1|].
  rewrite (C27_mc_logLikelihood _ _ ex_mc_wf U). unfold avg_ll, set_ll, sumL, weighted, ex_set.
  cbn [seqs times combine map fst snd rsum fold_right zsum]. rewrite P1, P2.
  destruct (Rlt_dec 0 (1/6)); [|lra]. destruct (Rlt_dec 0 (2/3)); [|lra]. cbn [Z.add Z.pos_sub Pos.add Pos.succ]. f_equal. lra.
Qed.

(** ** C28 *)

Theorem C28_mc_distribution : forall (m : mc R) (alphabet : list string) (T : nat), wf_mc m ->
  stochastic (mc_mat m) -> rsum (mc_ini m) = 1 ->
  NoDup alphabet -> (forall o, In o (mc_lab m) -> In o alphabet) ->
  sumL (words alphabet (S T)) (mc_trace_prob m) = 1 /\
  forall tr, tr <> [] -> 0 <= mc_trace_prob m tr <= 1.
Proof.
  intros m alph T W [Nm Sm] Si ND Ha. destruct W as [[Ln Lr] [Ll [Li Ni]]].
  assert (Si' : Sum (mc_n m) (vecR (mc_ini m)) = 1).
  { rewrite <- Si, rsum_nth, Li. reflexivity. }
  assert (Rs : forall s, (s < mc_n m)%nat -> Sum (mc_n m) (matR (mc_mat m) s) = 1).
  { intros s Hs. rewrite <- (Sm (nth s (mc_mat m) [])) by (apply nth_In; lia).
    rewrite rsum_nth, (Lr (nth s (mc_mat m) [])) by (apply nth_In; lia). reflexivity. }
  split.
  - rewrite (sumL_ext _ _ (fun tr => trace_prob (mc_n m) (vecR (mc_ini m)) (repeat (matR (mc_mat m)) T) (map (is_label (mc_lab m)) tr))).
    2:{ intros tr I. apply words_length in I. unfold mc_trace_prob. rewrite I. replace (S T - 1)%nat with T by lia. reflexivity. }
    replace (S T) with (S (length (repeat (matR (mc_mat m)) T))) by (rewrite repeat_length; reflexivity).
    apply words_total; auto.
    + intros s Hs. apply is_label_total; auto. lia.
    + apply Forall_forall. intros A I. apply repeat_spec in I. subst. exact Rs.
  - intros tr NE. unfold mc_trace_prob.
    assert (Lt : length tr = S (length (repeat (matR (mc_mat m)) (length tr - 1)))) by (rewrite repeat_length; destruct tr; [congruence|cbn; lia]).
    assert (Ok' : Forall (okw (mc_n m)) (repeat (matR (mc_mat m)) (length tr - 1))).
    { apply Forall_forall. intros A I. apply repeat_spec in I. subst. intros i j _ _. apply matR_nonneg; exact Nm. }
    split.
    + apply trace_prob_nonneg; auto; [intros; apply is_label_01|intros i _; apply vecR_nonneg; exact Ni].
    + apply trace_prob_le1; auto; [intros; apply is_label_01| |intros i _; apply vecR_nonneg; exact Ni|lra].
      apply Forall_forall. intros A I. apply repeat_spec in I. subst. intros s Hs. rewrite Rs by exact Hs. lra.
Qed.
Print Assumptions C28_mc_distribution.

Theorem C28_hmm_distribution : forall (m : hmm R) (T : nat), wf_hmm m ->
  stochastic (hmm_mat m) -> stochastic (hmm_out m) -> rsum (hmm_ini m) = 1 ->
  sumL (words (hmm_alph m) (S T)) (hmm_trace_prob m) = 1 /\
  forall tr, tr <> [] -> 0 <= hmm_trace_prob m tr <= 1.
Proof.
  intros m T W [Nm Sm] [No So] Si. pose proof W as W'. destruct W as [[Ln Lr] [Lo [Lor [ND [Li Ni]]]]].
  assert (Si' : Sum (hmm_n m) (vecR (hmm_ini m)) = 1).
  { rewrite <- Si, rsum_nth, Li. reflexivity. }
  assert (Rs : forall s, (s < hmm_n m)%nat -> Sum (hmm_n m) (matR (hmm_mat m) s) = 1).
  { intros s Hs. rewrite <- (Sm (nth s (hmm_mat m) [])) by (apply nth_In; lia).
    rewrite rsum_nth, (Lr (nth s (hmm_mat m) [])) by (apply nth_In; lia). reflexivity. }
  assert (Em : forall s, (s < hmm_n m)%nat -> sumL (hmm_alph m) (fun o => emit m o s) = 1).
  { intros s Hs. rewrite emit_total by assumption. apply So, nth_In. lia. }
  assert (Eb : forall o s, (s < hmm_n m)%nat -> 0 <= emit m o s <= 1).
  { intros o s Hs. split; [apply emit_nonneg; exact No|]. destruct (in_dec String.string_dec o (hmm_alph m)) as [I|I].
    - rewrite <- (Em s Hs). apply (sumL_ge_term (hmm_alph m) (fun o => emit m o s)); [exact I|]. intros; apply emit_nonneg; exact No.
    - unfold emit. rewrite Sum_zero_ext; [lra|]. intros i Hi. destruct (String.eqb_spec (nth i (hmm_alph m) EmptyString) o) as [<-|]; [|reflexivity].
      exfalso. apply I, nth_In. exact Hi. }
  split.
  - rewrite (sumL_ext _ _ (fun tr => trace_prob (hmm_n m) (vecR (hmm_ini m)) (repeat (matR (hmm_mat m)) T) (map (emit m) tr))).
    2:{ intros tr I. apply words_length in I. unfold hmm_trace_prob. rewrite I. replace (S T - 1)%nat with T by lia. reflexivity. }
    replace (S T) with (S (length (repeat (matR (hmm_mat m)) T))) by (rewrite repeat_length; reflexivity).
    apply words_total; auto.
    apply Forall_forall. intros A I. apply repeat_spec in I. subst. exact Rs.
  - intros tr NE. unfold hmm_trace_prob.
    assert (Lt : length tr = S (length (repeat (matR (hmm_mat m)) (length tr - 1)))) by (rewrite repeat_length; destruct tr; [congruence|cbn; lia]).
    assert (Ok' : Forall (okw (hmm_n m)) (repeat (matR (hmm_mat m)) (length tr - 1))).
    { apply Forall_forall. intros A I. apply repeat_spec in I. subst. intros i j _ _. apply matR_nonneg; exact Nm. }
    split.
    + apply trace_prob_nonneg; auto; [intros; apply Eb; assumption|intros i _; apply vecR_nonneg; exact Ni].
    + apply trace_prob_le1; auto; [|intros i _; apply vecR_nonneg; exact Ni|lra].
      apply Forall_forall. intros A I. apply repeat_spec in I. subst. intros s Hs. rewrite Rs by exact Hs. lra.
Qed.
Print Assumptions C28_hmm_distribution.

(** Alternating sequence of observations and actions. *)
Fixpoint interleave (obs acts : list string) : list string :=
  match obs, acts with
  | o :: obs', a :: acts' => o :: a :: interleave obs' acts'
  | o :: _, [] => [o]
  | [], _ => []
  end.
Lemma interleave_spec obs : forall acts, length obs = S (length acts) -> evens (interleave obs acts) = obs /\ odds (interleave obs acts) = acts.
Proof.
  induction obs as [|o obs IH]; intros [|a acts] L; try discriminate.
  - destruct obs; [|discriminate]. split; reflexivity.
  - cbn [interleave evens odds]. destruct (IH acts) as [A B]; [cbn in L; lia|]. split; f_equal; assumption.
Qed.

(** MDP: for a fixed sequence of actions, each enabled (stochastic row) in every
    state, the observation sequences form a distribution. *)
Theorem C28_mdp_distribution : forall (m : mdp R) (alphabet acts : list string), wf_mdp m -> nonneg_mdp m ->
  rsum (mdp_ini m) = 1 ->
  (forall a s, In a acts -> (s < mdp_n m)%nat -> Sum (mdp_n m) (act_mat m a s) = 1) ->
  NoDup alphabet -> (forall o, In o (mdp_lab m) -> In o alphabet) ->
  sumL (words alphabet (S (length acts))) (fun obs => mdp_trace_prob m (interleave obs acts)) = 1.
Proof.
  intros m alph acts W N Si Ha ND Hl.
  rewrite (sumL_ext _ _ (fun obs => trace_prob (mdp_n m) (vecR (mdp_ini m)) (map (act_mat m) acts) (map (is_label (mdp_lab m)) obs))).
  2:{ intros obs I. apply words_length in I. destruct (interleave_spec obs acts I) as [A B]. unfold mdp_trace_prob. rewrite A, B. reflexivity. }
  destruct W as [_ [Ll [_ [Li _]]]].
  replace (length acts) with (length (map (act_mat m) acts)) by apply map_length. apply words_total.
  - intros s Hs. apply is_label_total; auto. lia.
  - apply Forall_forall. intros A I. apply in_map_iff in I. destruct I as [a [<- I]]. intros s Hs. apply Ha; assumption.
  - rewrite <- Si, rsum_nth, Li. reflexivity.
Qed.
Print Assumptions C28_mdp_distribution.

Theorem C28_ctmc_distribution : forall (m : ctmc R) (alphabet : list string) (T : nat), wf_ctmc m ->
  (forall s, (s < ct_n m)%nat -> exit_rate m s <> 0) -> rsum (ct_ini m) = 1 ->
  NoDup alphabet -> (forall o, In o (ct_lab m) -> In o alphabet) ->
  sumL (words alphabet (S T)) (ct_trace_prob m) = 1.
Proof.
  intros m alph T [[Ln Lr] [Ll [Li Ni]]] Ex Si ND Ha.
  rewrite (sumL_ext _ _ (fun tr => trace_prob (ct_n m) (vecR (ct_ini m)) (repeat (jump m) T) (map (is_label (ct_lab m)) tr))).
  2:{ intros tr I. apply words_length in I. unfold ct_trace_prob. rewrite I. replace (S T - 1)%nat with T by lia. reflexivity. }
  replace (S T) with (S (length (repeat (jump m) T))) by (rewrite repeat_length; reflexivity).
  apply words_total.
  - intros s Hs. apply is_label_total; auto. lia.
  - apply Forall_forall. intros A I. apply repeat_spec in I. subst. intros s Hs. unfold jump. rewrite Sum_div_r.
    replace (Sum (ct_n m) (matR (ct_mat m) s)) with (exit_rate m s); [field; apply Ex; exact Hs|].
    unfold exit_rate. rewrite rsum_nth, (Lr (nth s (ct_mat m) [])) by (apply nth_In; lia). reflexivity.
  - rewrite <- Si, rsum_nth, Li. reflexivity.
Qed.
Print Assumptions C28_ctmc_distribution.

Example C28_instance : sumL (words ["a"; "b"; "init"]%string 4) (mc_trace_prob ex_mc) = 1.
Proof.
  apply C28_mc_distribution.
  - exact ex_mc_wf.
  - exact ex_mc_stoch.
  - cbn; lra.
  - repeat constructor; cbn; intuition discriminate.
  - cbn. tauto.
Qed.

(** ** C29 *)

Lemma row_sums n m : square n m -> (forall r, In r m -> rsum r = 1) -> forall s, (s < n)%nat -> Sum n (matR m s) = 1.
Proof.
  intros [Ln Lr] Sm s Hs. rewrite <- (Sm (nth s m [])) by (apply nth_In; lia).
  rewrite rsum_nth, (Lr (nth s m [])) by (apply nth_In; lia). reflexivity.
Qed.

(** What the single-process version computes: the probability of the trace
    followed by one more move. *)
Theorem C29_mc_single_process_value : forall (m : mc R) (s : tset (list string)), wf_mc m ->
  length (times s) = length (seqs s) -> seqs s <> [] ->
  mc_logLikelihood_1 m s = Ok (avg_ll (mc_trace_prob_move m) (weighted s), sort trace_eqb trace_leb s).
Proof.
  intros m s W L NE. unfold mc_logLikelihood_1. rewrite oneproc_spec by (try apply W; assumption). f_equal. f_equal.
  apply avg_ll_ext. intros x t I. rewrite mc_tau_eq. cbn beta. unfold mc_trace_prob_move.
  change (vget (mc_ini m)) with (vecR (mc_ini m)). rewrite trace_prob_move_tot. reflexivity.
Qed.
Print Assumptions C29_mc_single_process_value.

Theorem C29_mc_platform_independent_partial : forall (m : mc R) (s : tset (list string)), wf_mc m ->
  (forall r, In r (mc_mat m) -> rsum r = 1) -> usable s -> seqs s <> [] ->
  exists v s', mc_logLikelihood m s = Ok v /\ mc_logLikelihood_1 m s = Ok (v, s') /\
    Permutation (weighted s) (weighted s').
Proof.
  intros m s W Sm U NE. exists (avg_ll (mc_trace_prob m) (weighted s)), (sort trace_eqb trace_leb s).
  split; [apply C27_mc_logLikelihood; assumption|]. split; [|apply (sort_perm s); apply U].
  unfold mc_logLikelihood_1. rewrite oneproc_spec by (try apply W; try apply U; exact NE). f_equal. f_equal.
  apply avg_ll_ext. intros x t I. apply in_combine_l in I. rewrite mc_tau_eq. cbn beta.
  unfold mc_trace_prob. change (vget (mc_ini m)) with (vecR (mc_ini m)).
  rewrite <- trace_prob_move_tot. apply trace_prob_move_eq; [exact (ne_of s x U I)|]. apply row_sums; [apply W|exact Sm].
Qed.
Print Assumptions C29_mc_platform_independent_partial.

Theorem C29_hmm_platform_independent_partial : forall (m : hmm R) (s : tset (list string)), wf_hmm m ->
  (forall r, In r (hmm_mat m) -> rsum r = 1) -> usable s -> seqs s <> [] ->
  exists v s', hmm_logLikelihood m s = Ok v /\ hmm_logLikelihood_1 m s = Ok (v, s') /\
    Permutation (weighted s) (weighted s').
Proof.
  intros m s W Sm U NE. exists (avg_ll (hmm_trace_prob m) (weighted s)), (sort trace_eqb trace_leb s).
  split; [apply C27_hmm_logLikelihood; assumption|]. split; [|apply (sort_perm s); apply U].
  unfold hmm_logLikelihood_1. rewrite oneproc_spec by (try apply W; try apply U; exact NE). f_equal. f_equal.
  apply avg_ll_ext. intros x t I. apply in_combine_l in I. rewrite hmm_tau_eq by exact W. cbn beta.
  unfold hmm_trace_prob. change (vget (hmm_ini m)) with (vecR (hmm_ini m)).
  rewrite <- trace_prob_move_tot. apply trace_prob_move_eq; [exact (ne_of s x U I)|]. apply row_sums; [apply W|exact Sm].
Qed.
Print Assumptions C29_hmm_platform_independent_partial.

(** For MDPs no condition on the rows is needed. *)
Theorem C29_mdp_platform_independent : forall (m : mdp R) (s : tset (list string)), wf_mdp m -> nonneg_mdp m ->
  usable s -> NoDup (seqs s) -> seqs s <> [] -> (forall tr, In tr (seqs s) -> Nat.odd (length tr) = true) ->
  exists v, mdp_logLikelihood m s = Ok v /\ mdp_oneproc m s = Ok v.
Proof.
  intros m s W N U ND NE Od. exists (avg_ll (mdp_trace_prob m) (weighted s)).
  split; [apply C27_mdp_logLikelihood; assumption|].
  rewrite mdp_oneproc_spec; [|apply W|split; [apply U|exact ND]|exact NE|apply U]. f_equal.
  apply avg_ll_ext. intros x t I. apply in_combine_l in I. symmetry. apply mdp_trace_prob_tot; auto.
Qed.
Print Assumptions C29_mdp_platform_independent.

(** Without stochastic rows the two versions differ: the single-process one
    sums the forward values after one more move, which loses the probability
    of ending in a state without outgoing transition. *)
Definition absorbing_mc : mc R := mkMC [[0; 0; 0]; [0; 0; 0]; [1/2; 1/2; 0]] ["a"; "b"; "init"]%string [0; 0; 1] "abs"%string.
Lemma absorbing_wf : wf_mc absorbing_mc.
Proof.
  repeat split; cbn; auto.
  - intros r [<-|[<-|[<-|[]]]]; reflexivity.
  - intros x [<-|[<-|[<-|[]]]]; lra.
Qed.
Definition absorbing_set : tset (list string) := mkset [["init"; "a"]]%string [1]%Z (Some 0%Z).
Lemma absorbing_usable : usable absorbing_set.
Proof. split; [reflexivity|]. split; [intros t [<-|[]]; lia|]. cbn. intros [E|[]]; discriminate. Qed.
Theorem C29_platform_dependence_refuted :
  exists (m : mc R) (s : tset (list string)), wf_mc m /\ stochastic01 (mc_mat m) /\ usable s /\
    mc_logLikelihood m s = Ok (ln (1/2)) /\ (exists s', mc_logLikelihood_1 m s = Ok (0, s')).
Proof.
  exists absorbing_mc, absorbing_set. split; [exact absorbing_wf|]. split; [|split; [exact absorbing_usable|split]].
  - split.
    + intros r [<-|[<-|[<-|[]]]] x; cbn; intros [<-|[<-|[<-|[]]]]; lra.
    + intros r [<-|[<-|[<-|[]]]]; cbn; lra.
  - rewrite (C27_mc_logLikelihood _ _ absorbing_wf absorbing_usable). unfold avg_ll, set_ll, sumL, weighted, absorbing_set.
    cbn [seqs times combine map fst snd rsum fold_right zsum].
    assert (mc_trace_prob absorbing_mc ["init"; "a"]%string = 1/2) as -> by (unfold mc_trace_prob, trace_prob, sumL; cbn; lra).
    destruct (Rlt_dec 0 (1/2)); [|lra]. cbn [Z.add]. f_equal. lra.
  - exists (sort trace_eqb trace_leb absorbing_set). rewrite (C29_mc_single_process_value _ _ absorbing_wf); [|reflexivity|discriminate].
    f_equal. f_equal. unfold avg_ll, set_ll, sumL, weighted, absorbing_set. cbn [seqs times combine map fst snd rsum fold_right zsum].
    assert (mc_trace_prob_move absorbing_mc ["init"; "a"]%string = 0) as -> by (unfold mc_trace_prob_move, trace_prob, sumL; cbn; lra).
    destruct (Rlt_dec 0 0); [lra|]. cbn [Z.add]. lra.
Qed.
Print Assumptions C29_platform_dependence_refuted.

Example C29_instance : wf_mc ex_mc /\ (forall r, In r (mc_mat ex_mc) -> rsum r = 1) /\ usable ex_set /\ seqs ex_set <> [].
Proof.
  split; [exact ex_mc_wf|]. split; [apply ex_mc_stoch|]. split; [apply C27_instance|discriminate].
Qed.

(** ** C30 *)

(** Forward matrix computed from scratch. *)
Definition scratch {K} `{Num K} (n : nat) (ini : list K) (ws : list (nat -> nat -> K)) : list (list K) :=
  updateAlphaMatrix n ws 0 (initAlphaMatrix n ini (length ws)).

(** Reusing the rows of the previous sequence up to the common prefix gives the
    same matrix, for any two sequences (so for any order); [w] is the weight
    used for one observation, e.g. [tau].  The numbers are those of any
    arithmetic: in double precision the matrices are the same bit for bit. *)
Theorem C30_prefix_sharing : forall (K : Type) (NK : Num K) (n : nat) (ini : list K) (w : string -> nat -> nat -> K) (previous sequence : list string),
  updateAlphaMatrix n (map w sequence) (common_prefix previous sequence) (scratch n ini (map w previous))
  = scratch n ini (map w sequence).
Proof. intros. unfold scratch. rewrite !update_init. apply update_share. Qed.
Print Assumptions C30_prefix_sharing.
(** Alternating sequences: the common prefix, counted in elements, is halved. *)
Theorem C30_prefix_sharing_mdp : forall (K : Type) (NK : Num K) (n : nat) (ini : list K) (w : string * string -> nat -> nat -> K) (previous sequence : list string),
  updateAlphaMatrix n (map w (pairs_of sequence)) (Nat.div2 (common_prefix previous sequence)) (scratch n ini (map w (pairs_of previous)))
  = scratch n ini (map w (pairs_of sequence)).
Proof. intros. unfold scratch. rewrite !update_init. apply update_share_mdp. Qed.
Print Assumptions C30_prefix_sharing_mdp.

(** Entry (k, s) of the matrix is the sum over all paths of k moves ending in s. *)
Lemma bw_alphas_nth n (ini : list R) ws : forall k s, length ini = n -> (k <= length ws)%nat -> (s < n)%nat ->
  nth s (nth k (bw_alphas n ini ws) []) 0 = tot n (vget ini) (firstn k ws) (fun i => if Nat.eqb i s then 1 else 0).
Proof.
  intros k s L Hk Hs. rewrite tot_steps.
  assert (E : nth k (bw_alphas n ini ws) [] = fold_left (fstep n) (firstn k ws) ini).
  { clear L. revert k ini Hk. induction ws as [|w ws IH]; intros k ini Hk.
    - assert (k = O) by (cbn in Hk; lia). subst. reflexivity.
    - destruct k as [|k]; [reflexivity|]. cbn [bw_alphas nth firstn fold_left]. apply IH. cbn in Hk; lia. }
  rewrite E. destruct (fold_fstep n (firstn k ws) ini L) as [L' Eg].
  change (nth s (fold_left (fstep n) (firstn k ws) ini) 0) with (vget (fold_left (fstep n) (firstn k ws) ini) s).
  rewrite Eg by exact Hs. rewrite (Sum_ext n _ (fun i => if Nat.eqb i s then steps n (vget ini) (firstn k ws) i else 0)).
  - rewrite Sum_indicator_in by exact Hs. reflexivity.
  - intros i _. destruct (Nat.eqb i s); ring.
Qed.
Theorem C30_forward_values : forall (n : nat) (ini : list R) (A : nat -> nat -> R) (B : string -> nat -> R) (sequence : list string) (k s : nat),
  length ini = n -> (k <= length sequence)%nat -> (s < n)%nat ->
  nth s (nth k (scratch n ini (map (fun o i j => B o i * A i j) sequence)) []) 0 =
  trace_prob n (vecR ini) (repeat A k) (map B (firstn k sequence) ++ [fun i => if Nat.eqb i s then 1 else 0]).
Proof.
  intros n ini A B sq k s L Hk Hs. unfold scratch. rewrite update_init, bw_alphas_nth by (auto; rewrite map_length; exact Hk).
  rewrite firstn_map. symmetry. rewrite paths_tot by (rewrite repeat_length, map_length, firstn_length; lia).
  rewrite <- (firstn_length_le sq Hk) at 1. rewrite wts_map. reflexivity.
Qed.
Print Assumptions C30_forward_values.
Example C30_instance : common_prefix ["init"; "a"; "b"]%string ["init"; "a"; "a"; "b"]%string = 2%nat /\
  common_prefix ["init"; "a"; "b"]%string ["init"]%string = 1%nat.
Proof. split; reflexivity. Qed.

(** ** C31 *)

Theorem C31_mc_multiset : forall (m : mc R) (s1 s2 : tset (list string)), wf_mc m -> usable s1 -> usable s2 ->
  (forall tr, mult trace_eqb s1 tr = mult trace_eqb s2 tr) -> mc_logLikelihood m s1 = mc_logLikelihood m s2.
Proof.
  intros m s1 s2 W U1 U2 E. rewrite !C27_mc_logLikelihood by assumption. f_equal.
  apply (avg_ll_mult trace_eqb (lex_eqb_decides String.eqb string_eqb_decides)). exact E.
Qed.
Print Assumptions C31_mc_multiset.
Theorem C31_hmm_multiset : forall (m : hmm R) (s1 s2 : tset (list string)), wf_hmm m -> usable s1 -> usable s2 ->
  (forall tr, mult trace_eqb s1 tr = mult trace_eqb s2 tr) -> hmm_logLikelihood m s1 = hmm_logLikelihood m s2.
Proof.
  intros m s1 s2 W U1 U2 E. rewrite !C27_hmm_logLikelihood by assumption. f_equal.
  apply (avg_ll_mult trace_eqb (lex_eqb_decides String.eqb string_eqb_decides)). exact E.
Qed.
Print Assumptions C31_hmm_multiset.
Theorem C31_ctmc_multiset : forall (m : ctmc R) (s1 s2 : tset (list string)), wf_ctmc m -> usable s1 -> usable s2 ->
  (forall tr, mult trace_eqb s1 tr = mult trace_eqb s2 tr) -> ct_logLikelihood m s1 = ct_logLikelihood m s2.
Proof.
  intros m s1 s2 W U1 U2 E. rewrite !C27_ctmc_logLikelihood by assumption. f_equal.
  apply (avg_ll_mult trace_eqb (lex_eqb_decides String.eqb string_eqb_decides)). exact E.
Qed.
Print Assumptions C31_ctmc_multiset.
Theorem C31_mdp_multiset : forall (m : mdp R) (s1 s2 : tset (list string)), wf_mdp m -> nonneg_mdp m -> usable s1 -> usable s2 ->
  seqs s1 <> [] -> seqs s2 <> [] ->
  (forall tr, In tr (seqs s1 ++ seqs s2) -> Nat.odd (length tr) = true) ->
  (forall tr, mult trace_eqb s1 tr = mult trace_eqb s2 tr) -> mdp_logLikelihood m s1 = mdp_logLikelihood m s2.
Proof.
  intros m s1 s2 W N U1 U2 NE1 NE2 Od E. rewrite !C27_mdp_logLikelihood; auto; try (intros tr I; apply Od; rewrite in_app_iff; auto). f_equal.
  apply (avg_ll_mult trace_eqb (lex_eqb_decides String.eqb string_eqb_decides)). exact E.
Qed.
Print Assumptions C31_mdp_multiset.
(** Vectors of reals: [eqb] is any test deciding equality. *)
Theorem C31_gohmm_multiset : forall (m : gohmm R) (d : nat) (eqb : list (list R) -> list (list R) -> bool) (s1 s2 : tset (list (list R))),
  decides_eq eqb -> wf_gohmm d m ->
  (forall st k, (st < go_n m)%nat -> (k < d)%nat -> 0 < stddev m st k) ->
  (forall tr o, In tr (seqs s1 ++ seqs s2) -> In o tr -> length o = d) -> usable s1 -> usable s2 ->
  (forall tr, mult eqb s1 tr = mult eqb s2 tr) -> go_logLikelihood m s1 = go_logLikelihood m s2.
Proof.
  intros m d eqb s1 s2 De W P Hd U1 U2 E.
  rewrite (C27_gohmm_logLikelihood m d s1), (C27_gohmm_logLikelihood m d s2); auto; try (intros tr o I; apply Hd; rewrite in_app_iff; auto).
  f_equal. apply (avg_ll_mult eqb De). exact E.
Qed.
Print Assumptions C31_gohmm_multiset.
Example C31_instance : let s2 := mkset [["init"; "b"]; ["init"; "a"; "b"]; ["init"; "a"; "b"]]%string [1; 1; 1]%Z (Some 0%Z) in
  usable s2 /\ forall tr, mult trace_eqb ex_set tr = mult trace_eqb s2 tr.
Proof.
  split.
  - split; [reflexivity|]. split; [intros t [<-|[<-|[<-|[]]]]; lia|]. cbn. intros [E|[E|[E|[]]]]; discriminate.
  - intros tr. unfold mult, ex_set. cbn [seqs times combine wmult]. destruct (trace_eqb tr _), (trace_eqb tr _); reflexivity.
Qed.

(** ** C32 *)

(** Exact effect of an impossible trace: it only enlarges the denominator ... *)
Theorem C32_impossible_trace_effect_refuted : forall (m : mc R) (s : tset (list string)) (tr : list string) (t : Z),
  wf_mc m -> usable s -> tr <> [] -> (1 <= t)%Z -> mc_trace_prob m tr = 0 ->
  avg_ll (mc_trace_prob m) (weighted s) < 0 ->
  exists v v', mc_logLikelihood m s = Ok v /\
    mc_logLikelihood m (mkset (seqs s ++ [tr]) (times s ++ [t]) (ty s)) = Ok v' /\
    v' = v * (IZR (zsum (times s)) / (IZR (zsum (times s)) + IZR t)) /\ v < v'.
Proof.
  intros m s tr t W U NE Ht P0 Neg.
  assert (U' : usable (mkset (seqs s ++ [tr]) (times s ++ [t]) (ty s))).
  { destruct U as [L [Po Ne]]. split; [cbn; rewrite !app_length; cbn; lia|]. split.
    - intros u I. cbn in I. rewrite in_app_iff in I. destruct I as [I|[<-|[]]]; [exact (Po u I)|exact Ht].
    - cbn. rewrite in_app_iff. intros [I|[E|[]]]; [contradiction|congruence]. }
  eexists _, _. split; [apply C27_mc_logLikelihood; assumption|]. split; [apply C27_mc_logLikelihood; assumption|].
  assert (E : avg_ll (mc_trace_prob m) (weighted (mkset (seqs s ++ [tr]) (times s ++ [t]) (ty s))) =
    set_ll (mc_trace_prob m) (weighted s) / (IZR (zsum (times s)) + IZR t)).
  { unfold avg_ll, weighted. rewrite zsum_combine by apply U'. cbn [seqs times].
    assert (Z : zsum (times s ++ [t]) = (zsum (times s) + t)%Z).
    { clear. induction (times s) as [|u l IH]; [cbn; lia|]. change (zsum ((u :: l) ++ [t])) with (u + zsum (l ++ [t]))%Z. change (zsum (u :: l)) with (u + zsum l)%Z. lia. }
    rewrite Z, plus_IZR. f_equal. destruct U as [L _].
    assert (C : combine (seqs s ++ [tr]) (times s ++ [t]) = combine (seqs s) (times s) ++ [(tr, t)]).
    { clear - L. revert L. generalize (times s). induction (seqs s) as [|x l IH]; intros [|u ts] L; try discriminate; [reflexivity|].
      cbn. f_equal. apply IH. cbn in L; lia. }
    rewrite C. unfold set_ll. rewrite sumL_app, sumL_cons, sumL_nil. cbn [fst snd]. rewrite P0. destruct (Rlt_dec 0 0); lra. }
  rewrite E. unfold avg_ll in *. unfold weighted in *. rewrite zsum_combine in * by apply U.
  set (L := set_ll _ _) in *. set (N := IZR (zsum (times s))) in *.
  assert (Ht' : 1 <= IZR t) by (apply IZR_le in Ht; exact Ht).
  assert (HN : 0 < N).
  { assert (NZ : seqs s <> []). { intros Z. unfold L in Neg. rewrite Z in Neg. unfold set_ll, sumL in Neg. cbn in Neg. unfold Rdiv in Neg. rewrite Rmult_0_l in Neg. lra. }
    unfold N. apply IZR_lt. destruct U as [Ls [Po _]]. destruct (times s) as [|t0 ts] eqn:Et; [destruct (seqs s); [congruence|discriminate]|].
    assert (forall l, (forall u, In u l -> (1 <= u)%Z) -> (0 <= zsum l)%Z).
    { induction l as [|u l IH]; intros Hl; cbn; [lia|]. specialize (Hl u (or_introl eq_refl)) as H1. specialize (IH (fun v I => Hl v (or_intror I))). lia. }
    unfold pos_set in Po. rewrite Et in Po. cbn. specialize (Po t0 (or_introl eq_refl)) as H0. specialize (H ts (fun v I => Po v (or_intror I))). lia. }
  split.
  - field. lra.
  - assert (HL : L < 0). { apply Rmult_lt_reg_r with (/ N); [apply Rinv_0_lt_compat; exact HN|]. unfold Rdiv in Neg. lra. }
    unfold Rdiv. apply Ropp_lt_cancel. rewrite <- !Ropp_mult_distr_l_reverse.
    apply Rmult_lt_compat_l; [lra|]. apply Rinv_lt_contravar; [apply Rmult_lt_0_compat; lra|lra].
Qed.
Print Assumptions C32_impossible_trace_effect_refuted.

(** ... so that a set with an impossible trace can have a larger likelihood. *)
Theorem C32_impossible_trace_raises_refuted :
  exists (m : mc R) (s s' : tset (list string)) (tr : list string) v v', wf_mc m /\ stochastic (mc_mat m) /\ usable s /\
    mc_trace_prob m tr = 0 /\ s' = mkset (seqs s ++ [tr]) (times s ++ [1%Z]) (ty s) /\
    mc_logLikelihood m s = Ok v /\ mc_logLikelihood m s' = Ok v' /\ v < v'.
Proof.
  assert (U : usable ex_set) by apply C27_instance.
  assert (P0 : mc_trace_prob ex_mc ["init"; "b"; "a"]%string = 0) by (unfold mc_trace_prob, trace_prob, sumL; cbn; lra).
  destruct (C32_impossible_trace_effect_refuted ex_mc ex_set ["init"; "b"; "a"]%string 1 ex_mc_wf U) as [v [v' [E1 [E2 [_ L]]]]]; [discriminate|lia|exact P0| |].
  - destruct C27_instance as [_ [_ [_ E]]]. rewrite (C27_mc_logLikelihood _ _ ex_mc_wf U) in E. injection E as ->.
    assert (ln (1/6) < 0) by (rewrite <- ln_1; apply ln_increasing; lra).
    assert (ln (2/3) < 0) by (rewrite <- ln_1; apply ln_increasing; lra). lra.
  - exists ex_mc, ex_set, (mkset (seqs ex_set ++ [["init"; "b"; "a"]%string]) (times ex_set ++ [1%Z]) (ty ex_set)), ["init"; "b"; "a"]%string, v, v'.
    repeat split; auto; try apply ex_mc_wf; try apply ex_mc_stoch; try apply U.
Qed.
Print Assumptions C32_impossible_trace_raises_refuted.

(** Consequence of C28: the likelihood of a set is at most 0. *)
Theorem C28_mc_logLikelihood_nonpositive : forall (m : mc R) (s : tset (list string)), wf_mc m -> stochastic (mc_mat m) ->
  rsum (mc_ini m) = 1 -> usable s -> exists v, mc_logLikelihood m s = Ok v /\ v <= 0.
Proof.
  intros m s W St Si U. eexists. split; [apply C27_mc_logLikelihood; assumption|].
  unfold avg_ll. assert (set_ll (mc_trace_prob m) (weighted s) <= 0).
  { unfold set_ll. apply Rle_trans with (sumL (weighted s) (fun _ => 0)); [|rewrite sumL_zero; lra]. apply sumL_le. intros [tr t] I. cbn [fst snd].
    pose proof (in_combine_l _ _ _ _ I) as I1. apply in_combine_r in I.
    destruct (Rlt_dec 0 (mc_trace_prob m tr)) as [P|]; [|lra].
    destruct (C28_mc_distribution m (nodup String.string_dec (mc_lab m)) O W St Si) as [_ B].
    - apply NoDup_nodup.
    - intros o. rewrite nodup_In. auto.
    - assert (ln (mc_trace_prob m tr) <= 0). { destruct (B tr (ne_of s tr U I1)) as [_ [Lt|Eq]]; [pose proof (ln_increasing _ _ P Lt) as Li; rewrite ln_1 in Li; lra|rewrite Eq, ln_1; lra]. }
      destruct U as [_ [Po _]]. specialize (Po t I). apply IZR_le in Po. nra. }
  assert (0 <= IZR (zsum (map snd (weighted s)))).
  { apply IZR_le. unfold weighted. rewrite map_snd_combine by apply U. destruct U as [_ [Po _]]. unfold pos_set in Po.
    induction (times s) as [|t ts IH]; cbn; [lia|]. specialize (IH (fun u I => Po u (or_intror I))). specialize (Po t (or_introl eq_refl)). lia. }
  destruct (Req_dec (IZR (zsum (map snd (weighted s)))) 0) as [E|NE].
  - rewrite E. unfold Rdiv. rewrite Rinv_0, Rmult_0_r. lra.
  - apply Rmult_le_reg_r with (IZR (zsum (map snd (weighted s)))); [lra|]. unfold Rdiv. rewrite Rmult_assoc, Rinv_l by exact NE. lra.
Qed.
Print Assumptions C28_mc_logLikelihood_nonpositive.
