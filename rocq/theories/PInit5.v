(** Theorem C135: fit of a number of states for traces of vectors, for lists of
    traces, and for sets of no known type. *)
From Coq Require Import String ZArith Bool Reals List Lra Lia.
From Verif Require Import Num Py SNum LSum SPath LPath MTools MSet SSet LSet MModels LBW SBW SLik MCtor SCtor LCtor PCtor LRun PRun MRandom PRandom MLik MBW LBWMC LBWLoop LLik2 MBWObj MPrep PPrep MInit LInit PBWMC LLik LBWGO PBWGO PLik PBWObj PPool PInit2 PInit3 PInit4.
Import ListNotations.
Local Open Scope R_scope.

(** Traces of vectors of dimension d: none is empty, and every component takes
    two different values somewhere in the set. *)
Definition vector_set (T : list (list (list R))) (ts : list Z) : tset (list (pv R)) := mkset (map (map VVec) T) ts (Some 3%Z).
Definition good_vectors (d : nat) (T : list (list (list R))) (ts : list Z) : Prop :=
  length ts = length T /\ (forall z, In z ts -> (0 < z)%Z) /\ T <> [] /\ (forall tr, In tr T -> tr <> []) /\
  (forall tr o, In tr T -> In o tr -> length o = d) /\ varied d (combine T ts).
(** What numpy and random return for [GoHMM_random] with its default bounds. *)
Definition good_drawn_go (n : nat) (dr : drawn R) : Prop :=
  (forall i, (i <= n)%nat -> good_draws n (dr_row dr i)) /\ forall s k, 1/2 <= snd (dr_out dr s k) <= 2.

Lemma mmap_vector (tr : list (list R)) : mmap (@vector R) (map VVec tr) = Ok tr.
Proof. induction tr as [|o tr IH]; [reflexivity|]. cbn [map mmap vector bind]. rewrite IH. reflexivity. Qed.
Lemma mmap_vectors (T : list (list (list R))) : mmap (mmap (@vector R)) (map (map VVec) T) = Ok T.
Proof. induction T as [|tr T IH]; [reflexivity|]. cbn [map mmap]. rewrite mmap_vector. cbn [bind]. rewrite IH. reflexivity. Qed.

Lemma first_hypothesis_go n d (dr : drawn R) name : (0 < n)%nat -> (0 < d)%nat -> good_drawn_go n dr ->
  exists m0, GoHMM_random n d true (dr_row dr) (dr_out dr) name = Ok m0 /\ go_n m0 = n /\ wf_gohmm d m0 /\ stochastic (go_mat m0) /\ rsum (go_ini m0) = 1 /\ go_full d m0.
Proof.
  intros Pn Pd [GD GO].
  destruct (C69_GoHMM_random n d true (dr_row dr) (dr_out dr) name Pn Pd) as (m & E & N & W & D & _ & Mat & Out & DI & Ini).
  { intros i Hi. apply GD. lia. } { intros _. apply GD. lia. } { intros s k. destruct (GO s k). lra. }
  exists m. split; [exact E|]. split; [exact N|]. split; [exact W|]. split; [split; [intros r I; apply D, I|intros r I; apply D, I]|]. split; [apply DI|].
  split; [lia|]. split; [|split].
  - intros s k Hs Hk. destruct (Out s k ltac:(lia) Hk) as (_ & _ & [R1 _]). destruct (GO s k). unfold stddev in R1 |- *. revert R1. unfold Rabs. destruct (Rcase_abs _); lra.
  - intros s s' Hs Hs'. apply Mat; lia.
  - intros s Hs. rewrite Ini by lia. apply (share_pos n); [apply GD; lia|lia].
Qed.

Lemma fit_random_GoHMM (eqe : pv R -> pv R -> bool) d T ts n (dr : drawn R) name lo hi loop nd : good_vectors d T ts -> (nd = None \/ nd = Some d) ->
  (0 < n)%nat -> (0 < d)%nat -> good_drawn_go n dr ->
  exists m0, GoHMM_random n d true (dr_row dr) (dr_out dr) name = Ok m0 /\ go_n m0 = n /\ wf_gohmm d m0 /\ stochastic (go_mat m0) /\ rsum (go_ini m0) = 1 /\ go_full d m0 /\
    forall p eps mx, fit_random eqe (UserSet (vector_set T ts)) (Some n) true lo hi loop nd name dr p eps mx =
      tag TheGoHMM (bw_loop (round_GoHMM p d (combine T ts)) eps mx None 0 m0).
Proof.
  intros (L & P & NT & NE & DD & V) ND Pn Pd GD. destruct (first_hypothesis_go n d dr name Pn Pd GD) as (m0 & E0 & N & W & S1 & S2 & F).
  exists m0. repeat (split; [assumption|]). intros p eps mx. unfold fit_random, getTrainingSet. cbn [asSet bind]. unfold vector_set at 1 2. cbn [ty optZ_eqb Z.eqb Pos.eqb negb andb bind].
  unfold createInitialModel. cbn [pr_set ty vector_set seqs].
  assert (ED : match nd with Some d' => Ok d' | None => do s0 <- at_list (map (map VVec) T) 0; do v <- at_list s0 0; pylen v end = Ok d).
  { destruct ND as [-> | ->]; [|reflexivity]. destruct T as [|tr T]; [congruence|]. destruct tr as [|o tr]; [destruct (NE [] (or_introl eq_refl)); reflexivity|].
    cbn. rewrite (DD _ o (or_introl eq_refl) (or_introl eq_refl)). reflexivity. }
  rewrite ED. cbn [bind]. rewrite E0. cbn [bind]. unfold job_of. cbn [pr_set vector_set seqs times]. rewrite mmap_vectors. cbn [bind].
  replace (length (nth 0 (go_out m0) [])) with d.
  2:{ destruct W as (_ & W2 & W3 & _). symmetry. apply W3, nth_In. lia. }
  change new_object with (after []). rewrite C117_reused_object; [reflexivity|exact I|left; reflexivity].
Qed.

(** Learning a GoHMM from traces of vectors, for every number of rounds, of
    processes and every random draw: fit succeeds and returns a valid GoHMM of
    the given size with positive deviations, whose log-likelihood is at least
    that of the first hypothesis, both as computed by logLikelihood. *)
Theorem C135_GoHMM : forall (eqe : pv R -> pv R -> bool) d T ts n dr name lo hi loop nd processes eps max_it,
  good_vectors d T ts -> (nd = None \/ nd = Some d) -> (0 < n)%nat -> (0 < d)%nat -> good_drawn_go n dr ->
  exists m0 m c ll stopped,
    fit_random eqe (UserSet (vector_set T ts)) (Some n) true lo hi loop nd name dr processes eps max_it = Ok (TheGoHMM m, c, ll, stopped) /\
    GoHMM_random n d true (dr_row dr) (dr_out dr) name = Ok m0 /\
    go_n m = n /\ wf_gohmm d m /\ stochastic (go_mat m) /\ is_dist (go_ini m) /\ (forall s k, (s < n)%nat -> (k < d)%nat -> 0 < stddev m s k) /\
    (forall tr, In tr T -> 0 < go_trace_density m tr) /\
    exists v v', go_logLikelihood m0 (mkset T ts (Some 3%Z)) = Ok v /\ go_logLikelihood m (mkset T ts (Some 3%Z)) = Ok v' /\ v <= v'.
Proof.
  intros eqe d T ts n dr name lo hi loop nd p eps mx GV ND Pn Pd GD.
  destruct (fit_random_GoHMM eqe d T ts n dr name lo hi loop nd GV ND Pn Pd GD) as (m0 & E0 & N & W & S1 & S2 & F & FR). destruct GV as (L & P & NT & NE & DD & V).
  assert (Hd : obs_dim d (combine T ts)) by (intros tr t I o Io; apply in_combine_l in I; eauto).
  assert (HT : pos_times (combine T ts)) by (intros [tr t] I; apply in_combine_r in I; cbn; auto).
  assert (NC : combine T ts <> []) by (destruct T, ts; cbn in *; congruence).
  assert (OK : forall mx prev c m, wf_gohmm d m -> stochastic (go_mat m) -> go_full d m -> exists r, bw_loop (round_GoHMM p d (combine T ts)) eps mx prev c m = Ok r).
  { clear mx. induction mx as [|mx IH]; intros prev c m Wm Sm Fm; cbn [bw_loop]; [eauto|].
    destruct (full_round_succeeds d m (combine T ts) p Wm Fm Hd NC) as (m' & l & Er). rewrite Er. cbn [bind].
    destruct (C75_gohmm_round_stochastic d m m' p (combine T ts) l Wm (proj1 (proj2 Fm)) Sm Hd HT Er) as (W' & S' & _).
    pose proof (round_full d m (combine T ts) p m' l Wm Fm Hd HT V Er) as F'. destruct (match prev with None => false | Some q => _ end); [eauto|apply IH; assumption]. }
  destruct (OK mx None 0%nat m0 W S1 F) as ([[[m c] ll] st] & E).
  destruct (C75_gohmm_learning_stochastic d m0 m p mx c (combine T ts) eps ll st W S1 S2 F Hd HT V E) as (W' & S1' & S2' & F' & A & B).
  assert (U : usable (mkset T ts (Some 3%Z))).
  { split; [exact L|]. split; [intros t I; specialize (P t I); cbn in *; lia|]. intros I. exact (NE [] I eq_refl). }
  exists m0, m, c, ll, st. rewrite FR, E. split; [reflexivity|]. split; [exact E0|]. split; [congruence|]. split; [exact W'|]. split; [exact S1'|].
  split; [split; [apply W'|exact S2']|]. split; [intros s k Hs Hk; apply F'; lia|]. split.
  - intros tr I. rewrite <- (go_move_trace m d tr W' (proj2 S1') (NE tr I)), <- gP_path. apply (full_P d); [exact F'|intros o; apply DD, I].
  - apply (C71_gohmm_fit_improves_logLikelihood d m0 m p mx c (mkset T ts (Some 3%Z)) eps ll st); auto.
Qed.
Print Assumptions C135_GoHMM.

(** A list of traces is learned from exactly as the Set made from it. *)
Theorem C135_list : forall (eqe : pv R -> pv R -> bool) l n ri lo hi loop nd name (dr : drawn R) processes eps max_it,
  fit_random eqe (UserList l) (Some n) ri lo hi loop nd name dr processes eps max_it =
  do s <- newSet (lex_eqb eqe) l None None; fit_random eqe (UserSet s) (Some n) ri lo hi loop nd name dr processes eps max_it.
Proof.
  intros. unfold fit_random. destruct (getTrainingSet eqe None (UserList l)) as [p|e] eqn:E.
  - pose proof (C47_list_refuted _ eqe None l p E) as T. revert E. unfold getTrainingSet. cbn [asSet bind].
    destruct (newSet (lex_eqb eqe) l None None) as [s|e]; [|discriminate]. cbn [bind].
    destruct (optZ_eqb (ty s) (Some 0%Z) && mdp_guess (seqs s)) eqn:G; cbn [bind ty seqs times].
    + intros E. exfalso. apply T. apply andb_prop in G as [G1 G2]. cbn [optZ_eqb MDP_ID] in E. revert E. unfold MDP_ID. cbn [Z.eqb Pos.eqb negb andb optZ_eqb].
      destruct (actions_observations eqe (seqs s)) as [r|]; [|discriminate]. cbn [bind]. destruct (negb _); intros [= <-]; reflexivity.
    + destruct (negb (optZ_eqb (ty s) (Some 3%Z)) && negb (optZ_eqb None (Some HMM_ID))); [|intros [= <-]; reflexivity].
      destruct (if optZ_eqb (ty s) (Some 1%Z) then do r <- actions_observations eqe (seqs s); Ok (snd r) else getAlphabet eqe s) as [al|]; [|discriminate]. cbn [bind].
      destruct (negb (memb _ _ al)); intros [= <-]; reflexivity.
  - cbn [bind]. revert E. unfold getTrainingSet. cbn [asSet bind]. destruct (newSet (lex_eqb eqe) l None None) as [s|e'] eqn:N; [|intros [= <-]; reflexivity]. cbn [bind].
    destruct (optZ_eqb (ty s) (Some 0%Z) && mdp_guess (seqs s)) eqn:G; cbn [bind ty seqs times].
    + apply andb_prop in G as [G1 G2]. destruct (seqs s) eqn:Es; [|discriminate]. unfold MDP_ID. cbn [Z.eqb Pos.eqb negb andb optZ_eqb].
      destruct (actions_observations eqe []) as [r|] eqn:Ea; [|discriminate Ea]. cbn [bind]. destruct (negb _); discriminate.
    + intros E. match type of E with ?x = _ => match goal with |- _ = (do p <- ?y; _) => assert (E2 : y = Err e) end end; [|rewrite E2; reflexivity].
      destruct (negb (optZ_eqb (ty s) (Some 3%Z)) && negb (optZ_eqb None (Some HMM_ID))); [|discriminate].
      destruct (if optZ_eqb (ty s) (Some 1%Z) then do r <- actions_observations eqe (seqs s); Ok (snd r) else getAlphabet eqe s) as [al|]; [|exact E]. cbn [bind] in *.
      destruct (negb (memb _ _ al)); discriminate.
Qed.
Print Assumptions C135_list.

(** On a set of none of the four known kinds, in particular the empty list, fit
    raises AttributeError whatever the other arguments. *)
Theorem C135_unknown_kind_refuted : forall (eqe : pv R -> pv R -> bool) (s : tset (list (pv R))) n ri lo hi loop nd name (dr : drawn R) processes eps max_it,
  ~ In (ty s) [Some 0; Some 1; Some 3; Some 4]%Z ->
  fit_random eqe (UserSet s) (Some n) ri lo hi loop nd name dr processes eps max_it = Err AttributeError.
Proof.
  intros eqe s n ri lo hi loop nd name dr p eps mx T. cbn [In] in T.
  assert (H : exists q, getTrainingSet eqe None (UserSet s) = Ok q /\ ty (pr_set q) = ty s).
  { unfold getTrainingSet. cbn [asSet bind].
    assert (A : (if optZ_eqb (ty s) (Some 1%Z) then do r <- actions_observations eqe (seqs s); Ok (snd r) else getAlphabet eqe s) = Ok []).
    { unfold getAlphabet. destruct (ty s) as [z|]; [|reflexivity]. cbn [optZ_eqb]. destruct (Z.eqb_spec z 1) as [->|]; [tauto|].
      destruct z as [|[[]|[[]|[]|]|]|]; try reflexivity; tauto. }
    destruct (negb (optZ_eqb (ty s) (Some 3%Z)) && negb (optZ_eqb None (Some HMM_ID))); [|eexists; split; reflexivity].
    rewrite A. cbn [bind memb existsb negb]. eexists; split; reflexivity. }
  destruct H as (q & E & Tq). unfold fit_random. rewrite E. cbn [bind]. unfold createInitialModel. rewrite Tq.
  destruct (ty s) as [z|]; [|reflexivity]. destruct z as [|[[]|[[]|[]|]|]|]; try reflexivity; tauto.
Qed.
Print Assumptions C135_unknown_kind_refuted.
Theorem C135_empty_list_refuted : forall (eqe : pv R -> pv R -> bool) n ri lo hi loop nd name (dr : drawn R) processes eps max_it,
  fit_random eqe (UserList []) (Some n) ri lo hi loop nd name dr processes eps max_it = Err AttributeError.
Proof. intros. rewrite C135_list. cbn [newSet bind]. apply C135_unknown_kind_refuted. cbn. intuition discriminate. Qed.
Print Assumptions C135_empty_list_refuted.

Example C135_instance : forall max_it, exists m c ll stopped,
  fit_random pvR_eqb (UserSet (vector_set [[[1; 2]; [3; 2]]; [[0; 5]]] [1; 2]%Z)) (Some 2%nat) true None None false None "m" (ex_dr 2) 1 (1 / 100) max_it = Ok (TheGoHMM m, c, ll, stopped) /\
  go_n m = 2%nat /\ 0 < stddev m 1 1.
Proof.
  intros mx. destruct (C135_GoHMM pvR_eqb 2 [[[1; 2]; [3; 2]]; [[0; 5]]] [1; 2]%Z 2 (ex_dr 2) "m" None None false None 1 (1 / 100) mx) as (m0 & m & c & ll & st & E & _ & N & _ & _ & _ & Sd & _).
  - split; [reflexivity|]. split; [intros z I; cbn in I; lia|]. split; [discriminate|]. split; [intros tr [<-|[<-|[]]]; discriminate|].
    split; [intros tr o [<-|[<-|[]]] I; cbn in I; intuition (subst; reflexivity)|].
    assert (O1 : observed (combine [[[1; 2]; [3; 2]]; [[0; 5]]] [1; 2]%Z) [1; 2]) by (exists [[1; 2]; [3; 2]], 1%Z; cbn; auto).
    assert (O2 : observed (combine [[[1; 2]; [3; 2]]; [[0; 5]]] [1; 2]%Z) [0; 5]) by (exists [[0; 5]], 2%Z; cbn; auto).
    split; [exists [1; 2]; exact O1|]. intros k Hk. exists [1; 2], [0; 5]. split; [exact O1|]. split; [exact O2|]. destruct k as [|[|k]]; cbn; [lra|lra|lia].
  - left. reflexivity.
  - lia.
  - lia.
  - split; [intros i Hi; cbn [ex_dr dr_row]; destruct (Nat.eqb i 2); draws|intros s k; cbn; lra].
  - exists m, c, ll, st. split; [exact E|]. split; [exact N|]. apply Sd; lia.
Qed.

(** What fit refuses: no number of states and no initial model; and for traces of
    vectors, when the dimension is not given, a first trace that has no first
    vector to take it from. *)
Theorem C135_refused : forall (eqe : pv R -> pv R -> bool) (t : training R) (s : tset (list (pv R))) n ri lo hi loop nd name (dr : drawn R) processes eps max_it,
  fit_random eqe t None ri lo hi loop nd name dr processes eps max_it = Err RuntimeError /\
  (ty s = Some 3%Z ->
   (seqs s = [] \/ (exists r, seqs s = [] :: r) -> fit_random eqe (UserSet s) (Some n) ri lo hi loop None name dr processes eps max_it = Err IndexError) /\
   (forall x tr r, seqs s = (VFlt x :: tr) :: r -> fit_random eqe (UserSet s) (Some n) ri lo hi loop None name dr processes eps max_it = Err TypeError) /\
   (forall z tr r, seqs s = (VInt z :: tr) :: r -> fit_random eqe (UserSet s) (Some n) ri lo hi loop None name dr processes eps max_it = Err TypeError)).
Proof.
  intros. split; [reflexivity|]. destruct s as [q ts y]. cbn [ty seqs]. intros ->. unfold fit_random, getTrainingSet. cbn [asSet bind ty optZ_eqb Z.eqb Pos.eqb negb andb].
  unfold createInitialModel. cbn [pr_set ty seqs]. split; [intros [-> |[r ->]]; reflexivity|]. split; intros x tr r ->; reflexivity.
Qed.
Print Assumptions C135_refused.
Example C135_refused_instance : forall eqe dr, fit_random eqe (UserSet (mkset [[VFlt 1; VFlt 2]] [1%Z] (Some 3%Z))) (Some 2%nat) true None None false None "h" dr 1 (1/100) 5 = Err TypeError.
Proof. intros eqe dr. apply (C135_refused eqe (UserList []) (mkset [[VFlt 1; VFlt 2]] [1%Z] (Some 3%Z)) 2 true None None false None "h" dr 1 (1/100) 5) with (x := 1) (tr := [VFlt 2]) (r := []); reflexivity. Qed.
