(** Theorems C131, C132: fit of a number of states for timed traces and for traces
    with actions. *)
From Coq Require Import String ZArith Bool Reals List Lra Lia.
From Verif Require Import Num Py SNum LSum SPath LPath MTools MSet SSet LSet MModels LBW SBW SLik MCtor SCtor LCtor PCtor LRun PRun MRandom PRandom MLik MBW LBWMC LBWCT LBWLoop LLik2 MBWObj MPrep PPrep MInit LInit PInit PInit2 PBWMC PBWCT PLik PBWObj PPool.
Import ListNotations.
Local Open Scope R_scope.

(** ** C131 *)

(** A timed trace as a list: label, dwell time, label, ..., label. *)
Fixpoint interleave (l : list string) (d : list R) : list (pv R) :=
  match l, d with
  | x :: l', y :: d' => VStr x :: VFlt y :: interleave l' d'
  | x :: _, [] => [VStr x]
  | [], _ => []
  end.
(** Traces (labels after the initial one, dwell times), as a Set of the library. *)
Definition timed_label_set (T : list (list string * list R)) (ts : list Z) : tset (list (pv R)) :=
  mkset (map (fun wd => interleave ("init"%string :: fst wd) (snd wd)) T) ts (Some 4%Z).
Definition good_timed (T : list (list string * list R)) (ts : list Z) : Prop :=
  T <> [] /\ length ts = length T /\ (forall z, In z ts -> (0 < z)%Z) /\
  forall w d, In (w, d) T -> w <> [] /\ length d = length w /\ (forall x, In x d -> 0 < x) /\ ~ In "init"%string w.
Definition good_drawn_ct (n : nat) (loop : bool) (lo hi : Z) (T : list (list string)) (dr : drawn R) : Prop :=
  (forall i, (i < n)%nat -> good_draws (if loop then n else n - 1) (dr_row dr i)) /\ good_draws n (dr_row dr n) /\ (forall i, (lo <= dr_wait dr i <= hi)%Z) /\
  forall al, NoDup al -> (forall x, In x al <-> occurs T x) -> forall k, (dr_extra dr k < length al)%nat.

Lemma interleave_even w d k x : length d = length w ->
  (nth_error (interleave ("init"%string :: w) d) (2 * k) = Some x -> exists o, x = VStr o /\ nth_error ("init"%string :: w) k = Some o).
Proof.
  generalize "init"%string as i. revert d k. induction w as [|y w IH]; intros d k i L H; destruct d as [|e d]; try discriminate.
  - destruct k as [|k]; cbn in H; [injection H as <-; exists i; auto|]. replace (k + S (k + 0))%nat with (S (2 * k)) in H by lia. destruct (2 * k)%nat; discriminate.
  - destruct k as [|k]; [cbn in H; injection H as <-; exists i; auto|].
    replace (2 * S k)%nat with (S (S (2 * k))) in H by lia. change (nth_error (interleave (y :: w) d) (2 * k) = Some x) in H. cbn in L. apply (IH d k y) in H; [|lia]. exact H.
Qed.
Lemma interleave_even' w d k o : length d = length w -> nth_error ("init"%string :: w) k = Some o -> nth_error (interleave ("init"%string :: w) d) (2 * k) = Some (VStr o).
Proof.
  generalize "init"%string as i. revert d k. induction w as [|y w IH]; intros d k i L H; destruct d as [|e d]; try discriminate.
  - destruct k as [|k]; [injection H as <-; reflexivity|]. destruct k; discriminate.
  - destruct k as [|k]; [injection H as <-; reflexivity|]. replace (2 * S k)%nat with (S (S (2 * k))) by lia.
    change (nth_error (interleave (y :: w) d) (2 * k) = Some (VStr o)). apply IH; [cbn in L; lia|exact H].
Qed.
Lemma splitTime_interleave w d i : length d = length w -> splitTime (interleave (i :: w) d) = Ok (i :: w, d).
Proof.
  revert d i. induction w as [|y w IH]; intros d i L; destruct d as [|e d]; try discriminate; [reflexivity|].
  change (splitTime (interleave (i :: y :: w) (e :: d))) with (do q <- splitTime (interleave (y :: w) d); Ok (i :: fst q, e :: snd q)).
  rewrite IH by (cbn in L; lia). reflexivity.
Qed.

Lemma prepare_timed (eqe : pv R -> pv R -> bool) T ts : decides_eq eqe -> good_timed T ts ->
  exists al, getTrainingSet eqe None (UserSet (timed_label_set T ts)) =
    Ok (mkPrep (timed_label_set T ts) (Some (map VStr al)) (UserSet (timed_label_set T ts))) /\
    NoDup al /\ (forall x, In x al <-> occurs (map fst T) x).
Proof.
  intros EQ (NE & L & P & G). rewrite getTrainingSet_set.
  destruct (getAlphabet_timed eqe EQ (timed_label_set T ts) eq_refl) as (al0 & E & ND & A).
  unfold timed_label_set at 1 2 3. cbn [ty optZ_eqb Z.eqb Pos.eqb negb andb]. rewrite E. cbn [bind].
  assert (A' : forall x, In x al0 <-> exists o, x = VStr o /\ (o = "init"%string \/ occurs (map fst T) o)).
  { intros x. rewrite A. cbn [timed_label_set seqs]. split.
    - intros (tr & k & I & J). apply in_map_iff in I as ([w d] & <- & I). cbn [fst snd] in J. destruct (G w d I) as (_ & Ld & _ & _).
      apply (interleave_even w d k x Ld) in J as (o & -> & J). exists o. split; [reflexivity|]. apply nth_error_In in J. destruct J as [<-|J]; [auto|].
      right. exists w. split; [apply in_map_iff; exists (w, d); auto|exact J].
    - intros (o & -> & [->|(w & I & J)]).
      + destruct T as [|[w d] T]; [congruence|]. exists (interleave ("init"%string :: w) d), O. split; [left; reflexivity|]. destruct d; reflexivity.
      + apply in_map_iff in I as ([w' d] & Ew & I). cbn in Ew. subst w'. destruct (G w d I) as (_ & Ld & _ & _). apply In_nth_error in J as (k & J).
        exists (interleave ("init"%string :: w) d), (S k). split; [apply in_map_iff; exists (w, d); auto|]. apply interleave_even'; [exact Ld|exact J]. }
  assert (M : memb eqe (VStr "init") al0 = true) by (apply (memb_In eqe EQ), A'; exists "init"%string; auto).
  rewrite M. cbn [negb]. destruct (all_strings (remove_first eqe (VStr "init") al0)) as (al & Eal).
  { intros x I. apply (remove_first_notin eqe EQ _ _ ND) in I as [I _]. apply A' in I as (o & -> & _). eauto. }
  exists al. rewrite Eal. split; [reflexivity|]. split; [apply (NoDup_unmap (F:=R)); rewrite <- Eal; apply remove_first_nodup, ND|].
  intros x. rewrite <- (In_VStr (F:=R) x al), <- Eal, (remove_first_notin eqe EQ _ _ ND), A'. split.
  - intros [(o & F & J) N]. injection F as <-. destruct J as [->|J]; [congruence|exact J].
  - intros J. split; [exists x; auto|]. intros F. injection F as ->. destruct J as (w & I & J). apply in_map_iff in I as ([w' d] & Ew & I). cbn in Ew. subst w'. apply (G w d I), J.
Qed.

Lemma is_fixed_none n k s s' : is_fixed (repeat (repeat false n) k) s s' = false.
Proof.
  unfold is_fixed. destruct (nth_in_or_default s (repeat (repeat false n) k) []) as [I|E]; [|rewrite E; destruct s'; reflexivity].
  apply repeat_spec in I as ->. destruct (nth_in_or_default s' (repeat false n) false) as [J|E]; [apply repeat_spec in J; exact J|exact E].
Qed.

(** Fit is Baum-Welch started from the random CTMC. *)
Lemma fit_random_CTMC (eqe : pv R -> pv R -> bool) T ts n (loop : bool) dr name lo hi nd :
  decides_eq eqe -> good_timed T ts -> (0 < n)%nat -> (loop = false -> 2 <= n)%nat -> (0 < lo)%Z -> good_drawn_ct n loop lo hi (map fst T) dr ->
  exists al m0, NoDup al /\ (forall x, In x al <-> occurs (map fst T) x) /\ al <> [] /\ ~ In "init"%string al /\
    CTMC_random n al lo hi loop true (dr_row dr) (dr_wait dr) (dr_extra dr) name = Ok m0 /\
    forall p eps mx, fit_random eqe (UserSet (timed_label_set T ts)) (Some n) true (Some lo) (Some hi) loop nd name dr p eps mx =
      tag TheCTMC (bw_loop (round_CTMC_timed p (repeat (repeat false (ct_n m0)) (ct_n m0)) (combine (map (fun wd => ("init"%string :: fst wd, snd wd)) T) ts)) eps mx None 0 m0).
Proof.
  intros EQ GS Pn P2 Plo (GD & GI & GW & GX). destruct (prepare_timed eqe T ts EQ GS) as (al & EP & ND & A). destruct GS as (NE & L & Pz & G).
  assert (NEal : al <> []).
  { destruct T as [|[w d] T]; [congruence|]. destruct (G w d (or_introl eq_refl)) as (Nw & _). destruct w as [|x w]; [congruence|].
    assert (I : In x al) by (apply A; exists (x :: w); split; left; reflexivity). intros ->. destruct I. }
  assert (NIal : ~ In "init"%string al).
  { intros I. apply A in I as (w & I & J). apply in_map_iff in I as ([w' d] & Ew & I). cbn in Ew. subst w'. apply (G w d I), J. }
  destruct (C69_CTMC_random n al lo hi loop true (dr_row dr) (dr_wait dr) (dr_extra dr) name Pn P2 NEal NIal (GX al ND A) GD (fun _ => GI) Plo GW) as (m0 & E0 & _).
  exists al, m0. repeat (split; [assumption|]). intros p eps mx. unfold fit_random. rewrite EP. cbn [bind]. unfold createInitialModel. cbn [pr_set ty timed_label_set pr_alphabet]. rewrite strings_map. cbn [bind]. rewrite E0. cbn [bind].
  unfold job_of. cbn [seqs times timed_label_set].
  assert (SP : mmap splitTime (map (fun wd => interleave ("init"%string :: fst wd) (snd wd)) T) = Ok (map (fun wd => ("init"%string :: fst wd, snd wd)) T)).
  { clear - G. induction T as [|[w d] T IH]; [reflexivity|]. cbn [map mmap fst snd]. rewrite splitTime_interleave by (apply (G w d); left; reflexivity). cbn [bind].
    rewrite IH by (intros w' d' I; apply (G w' d'); right; exact I). reflexivity. }
  rewrite SP. cbn [bind]. change new_object with (after []). rewrite C117_reused_object; [reflexivity| |left; reflexivity].
  intros tr t I. apply in_combine_l in I. apply in_map_iff in I as ([w d] & <- & I). destruct (G w d I) as (Nw & Ld & _). cbn [fst snd length]. destruct w; [congruence|]. cbn in *. lia.
Qed.

(** Learning a CTMC from timed traces that start with 'init', with self loops: as
    for Markov chains. *)
Theorem C131_CTMC : forall (eqe : pv R -> pv R -> bool) T ts n dr name lo hi nd processes eps,
  decides_eq eqe -> good_timed T ts -> (0 < n)%nat -> at_most n (map fst T) -> (0 < lo)%Z -> good_drawn_ct n true lo hi (map fst T) dr -> 0 < eps ->
  exists m0 m c ll N,
    (forall max_it, (N <= max_it)%nat ->
       fit_random eqe (UserSet (timed_label_set T ts)) (Some n) true (Some lo) (Some hi) true nd name dr processes eps max_it = Ok (TheCTMC m, c, Some ll, true)) /\
    wf_ctmc m /\ nonneg_mat (ct_mat m) /\ is_dist (ct_ini m) /\ ct_n m = S n /\
    nth n (ct_lab m) EmptyString = "init"%string /\
    (forall x, (exists s, (s < n)%nat /\ nth s (ct_lab m) EmptyString = x) <-> occurs (map fst T) x) /\
    (forall w d, In (w, d) T -> 0 < ct_density m ("init"%string :: w, d)) /\
    (exists al, NoDup al /\ (forall x, In x al <-> occurs (map fst T) x) /\ CTMC_random n al lo hi true true (dr_row dr) (dr_wait dr) (dr_extra dr) name = Ok m0) /\
    let set := combine (map (fun wd => ("init"%string :: fst wd, snd wd)) T) ts in
    set_ll (ct_density m0) set <= set_ll (ct_density m) set.
Proof.
  intros eqe T ts n dr name lo hi nd p eps EQ GS Pn AM Plo GD He.
  destruct (fit_random_CTMC eqe T ts n true dr name lo hi nd EQ GS Pn ltac:(discriminate) Plo GD) as (al & m0 & ND & A & NEal & NIal & E0 & FR).
  destruct GS as (NE & L & Pz & G). destruct GD as (GD & GI & GW & GX).
  destruct (ctmc_starts n al lo hi true true (dr_row dr) (dr_wait dr) (dr_extra dr) name m0 Pn ltac:(discriminate) NEal NIal (GX al ND A) GD (fun _ => GI) Plo GW E0) as (N & W & NN & D & RL & MI & ST).
  cbn zeta. set (set := combine (map (fun wd => ("init"%string :: fst wd, snd wd)) T) ts) in *.
  set (fixed := repeat (repeat false (ct_n m0)) (ct_n m0)) in *.
  assert (MEM : forall tr t, In (tr, t) set -> exists w d, In (w, d) T /\ tr = ("init"%string :: w, d)).
  { intros tr t I. apply in_combine_l in I. apply in_map_iff in I as ([w d] & <- & I). exists w, d. auto. }
  assert (HT : pos_times set) by (intros [tr t] I; apply in_combine_r in I; apply Pz, I).
  assert (TS : timed_set set).
  { intros tr t I. apply MEM in I as (w & d & I & ->). destruct (G w d I) as (_ & Ld & Pd & _). cbn [fst snd length]. split; [lia|]. intros x J. left. apply Pd, J. }
  assert (PD : pos_dwell set) by (intros tr t I; apply MEM in I as (w & d & I & ->); apply (G w d I)).
  assert (POS : forall tr t, In (tr, t) set -> 0 < ct_density m0 tr).
  { intros tr t I. apply MEM in I as (w & d & I & ->). destruct (G w d I) as (_ & Ld & _ & _). unfold ct_density. cbn [fst snd]. rewrite N.
    apply (loop_support n true _ _ al (ct_lab m0)); try assumption.
    - intros B J. apply in_map_iff in J as (x & <- & _). apply ST.
    - rewrite map_length. exact Ld.
    - split; [|discriminate]. intros x J. rewrite (firstn_at_most n al _ ND A AM). apply A. exists w. split; [apply in_map_iff; exists (w, d); auto|exact J]. }
  assert (INS : forall w d, In (w, d) T -> exists t, In (("init"%string :: w, d), t) set).
  { intros w d I. apply (In_nth _ _ ([], [])) in I as (i & Li & Ei). exists (nth i ts 0%Z). unfold set.
    replace ("init"%string :: w, d) with (nth i (map (fun wd : list string * list R => ("init"%string :: fst wd, snd wd)) T) ("init"%string :: fst (@nil string, @nil R), snd (@nil string, @nil R))).
    - rewrite <- combine_nth by (rewrite map_length; lia). apply nth_In. rewrite combine_length, map_length. lia.
    - rewrite (map_nth (fun wd : list string * list R => ("init"%string :: fst wd, snd wd))). rewrite Ei. reflexivity. }
  assert (EX : exists tr t, In (tr, t) set /\ 0 < ct_density m0 tr).
  { destruct T as [|[w d] T']; [congruence|]. destruct (INS w d (or_introl eq_refl)) as (t & J). exists ("init"%string :: w, d), t. split; [exact J|apply (POS _ _ J)]. }
  destruct (archimed_nat ((set_bound set - set_ll (ct_density m0) set) / eps)) as (N' & HN').
  assert (HN : set_bound set - set_ll (ct_density m0) set < INR N' * eps).
  { apply (Rmult_lt_compat_r eps) in HN'; [|exact He]. unfold Rdiv in HN'. rewrite Rmult_assoc, Rinv_l, Rmult_1_r in HN' by lra. exact HN'. }
  destruct (C42_ctmc_timed_terminates m0 fixed p set eps N' W NN ltac:(rewrite (proj2 D); lra) TS PD HT He EX (or_intror POS) HN) as (m & c & ll & Hc & B).
  exists m0, m, c, ll, (S N').
  pose proof (B (S N') (le_n _)) as B0.
  destruct (C41_ctmc_timed_fit_likelihood m0 m fixed p _ c set eps (Some ll) true W NN TS HT B0) as (W' & NN' & (F1 & F2 & F3 & F4) & LE).
  split; [intros mx Hm; rewrite FR, (B mx Hm); reflexivity|]. split; [exact W'|]. split; [exact NN'|].
  assert (FL : ct_lab m = ct_lab m0 /\ ct_ini m = ct_ini m0 /\ ct_n m = ct_n m0) by (repeat split; congruence).
  destruct FL as (FL & FI & FN). split; [rewrite FI; exact D|]. split; [congruence|]. rewrite FL. split; [apply RL|]. split.
  { intros x. rewrite (random_label_set n al (ct_lab m0) RL x), (firstn_at_most n al _ ND A AM). apply A. }
  split.
  { assert (INV : (ct_ok m) /\ forall tr t, In (tr, t) set -> 0 < ct_density m tr).
    { apply (bw_loop_inv (round_CTMC_timed p fixed set) eps (fun x => ct_ok x /\ forall tr t, In (tr, t) set -> 0 < ct_density x tr)) in B0; [exact B0| |split; [split; assumption|exact POS]].
      intros x x' l [Ok1 P1] Er. split; [apply (round_ct_ok x fixed set p x' l Ok1 TS HT Er)|].
      destruct (C41_ctmc_timed_round_likelihood x x' fixed p set l (proj1 Ok1) (proj2 Ok1) TS HT Er) as (_ & _ & Ps). intros tr t I. apply (Ps tr t I), (P1 tr t I). }
    intros w d I. destruct (INS w d I) as (t & J). apply (proj2 INV _ _ J). }
  split; [exists al; auto|exact LE].
Qed.
Print Assumptions C131_CTMC.

(** Impossible traces stay impossible, and one process cannot ignore them. *)
Lemma ct_density_nonneg m tr : wf_ctmc m -> nonneg_mat (ct_mat m) -> 0 <= ct_density m tr.
Proof.
  intros W NN. unfold ct_density, trace_prob. apply sumL_nonneg. intros y I. apply Rmult_le_pos; [unfold vecR; destruct (nth_in_or_default (hd O y) (ct_ini m) 0) as [J|F]; [apply W, J|rewrite F; lra]|].
  apply (path_weight_nonneg (ct_n m)); [apply (paths_range _ _ _ I)| |].
  - intros A i j J _ _. apply in_map_iff in J as (z & <- & _). unfold jump_density. apply Rmult_le_pos; [apply matR_nonneg, NN|left; apply exp_pos].
  - intros b i J _. apply in_map_iff in J as (? & <- & _). apply is_label_nonneg.
Qed.
(** Without self loops, the default of fit, and with at most one state per label:
    if a training trace repeats a label, fit raises with one process, and with
    several processes returns a CTMC in which this trace is impossible. *)
Theorem C131_CTMC_default_refuted : forall (eqe : pv R -> pv R -> bool) T ts n dr name lo hi nd processes eps max_it u x v d,
  decides_eq eqe -> good_timed T ts -> (2 <= n)%nat -> (exists l, NoDup l /\ (forall x, In x l -> occurs (map fst T) x) /\ (n <= length l)%nat) ->
  (0 < lo)%Z -> good_drawn_ct n false lo hi (map fst T) dr -> (1 <= max_it)%nat -> In (u ++ x :: x :: v, d) T ->
  forall result, fit_random eqe (UserSet (timed_label_set T ts)) (Some n) true (Some lo) (Some hi) false nd name dr processes eps max_it = Ok result ->
    (1 < processes)%nat /\ exists m c ll st, result = (TheCTMC m, c, ll, st) /\ ct_density m ("init"%string :: u ++ x :: x :: v, d) = 0.
Proof.
  intros eqe T ts n dr name lo hi nd p eps mx u x v d EQ GS Pn (l & NDl & Ol & Ll) Plo GD Hm IT result ER.
  destruct (fit_random_CTMC eqe T ts n false dr name lo hi nd EQ GS ltac:(lia) (fun _ => Pn) Plo GD) as (al & m0 & ND & A & NEal & NIal & E0 & FR).
  destruct GS as (NE & L & Pz & G). destruct GD as (GD & GI & GW & GX).
  destruct (ctmc_starts n al lo hi false true (dr_row dr) (dr_wait dr) (dr_extra dr) name m0 ltac:(lia) (fun _ => Pn) NEal NIal (GX al ND A) GD (fun _ => GI) Plo GW E0) as (N & W & NN & D & RL & MI & ST).
  rewrite FR in ER. set (set := combine (map (fun wd => ("init"%string :: fst wd, snd wd)) T) ts) in *.
  set (fixed := repeat (repeat false (ct_n m0)) (ct_n m0)) in *.
  assert (HT : pos_times set) by (intros [tr t] I; apply in_combine_r in I; apply Pz, I).
  assert (TS : timed_set set).
  { intros tr t I. apply in_combine_l in I. apply in_map_iff in I as ([w e] & <- & I). destruct (G w e I) as (_ & Ld & Pd & _). cbn [fst snd length]. split; [lia|]. intros y J. left. apply Pd, J. }
  assert (J : exists z, In (("init"%string :: u ++ x :: x :: v, d), z) set).
  { pose proof IT as I. apply (In_nth _ _ ([], [])) in I as (i & Li & Ei). exists (nth i ts 0%Z). unfold set.
    replace ("init"%string :: u ++ x :: x :: v, d) with (nth i (map (fun wd : list string * list R => ("init"%string :: fst wd, snd wd)) T) ("init"%string :: fst (@nil string, @nil R), snd (@nil string, @nil R))).
    - rewrite <- combine_nth by (rewrite map_length; lia). apply nth_In. rewrite combine_length, map_length. lia.
    - rewrite (map_nth (fun wd : list string * list R => ("init"%string :: fst wd, snd wd))). rewrite Ei. reflexivity. }
  destruct J as (z & J).
  assert (Ln : (n <= length al)%nat).
  { apply Nat.le_trans with (1 := Ll). apply NoDup_incl_length; [exact NDl|]. intros y I. apply A, Ol, I. }
  destruct (G _ _ IT) as (_ & Ld & _ & _).
  pose proof (C129_CTMC_repeated_label_refuted n al lo hi true (dr_row dr) (dr_wait dr) (dr_extra dr) name m0 Pn ND Ln NIal (GX al ND A) GD (fun _ => GI) Plo GW E0 u x v d Ld) as Z.
  destruct (bw_loop (round_CTMC_timed p fixed set) eps mx None 0 m0) as [[[[m c] ll] st]|e] eqn:B; [|discriminate]. cbn [tag bind] in ER. injection ER as <-.
  split.
  - destruct (Nat.lt_ge_cases 1 p) as [|Hp]; [assumption|]. exfalso. destruct mx as [|mx]; [lia|]. cbn [bw_loop] in B.
    assert (F : forall r, round_CTMC_timed p fixed set m0 <> Ok r).
    { intros r F. unfold round_CTMC_timed, update_CTMC in F. rewrite unwrap_run_one_err in F; [discriminate|exact Hp|].
      exists ("init"%string :: u ++ x :: x :: v, d, z). split; [exact J|]. cbn [fst snd].
      rewrite (t_work m0 W fixed set _ _ J). rewrite tP_path by (cbn [fst snd length]; lia). rewrite Z. destruct (Req_EM_T 0 0); [reflexivity|congruence]. }
    destruct (round_CTMC_timed p fixed set m0) as [r|e]; [exact (F r eq_refl)|discriminate].
  - exists m, c, ll, st. split; [reflexivity|].
    assert (INV : ct_ok m /\ forall tr t, In (tr, t) set -> (0 < ct_density m0 tr <-> 0 < ct_density m tr)).
    { apply (bw_loop_inv (round_CTMC_timed p fixed set) eps (fun y => ct_ok y /\ forall tr t, In (tr, t) set -> (0 < ct_density m0 tr <-> 0 < ct_density y tr))) in B; [exact B| |split; [split; assumption|tauto]].
      intros y y' q [Ok1 P1] Er. split; [apply (round_ct_ok y fixed set p y' q Ok1 TS HT Er)|].
      destruct (C41_ctmc_timed_round_likelihood y y' fixed p set q (proj1 Ok1) (proj2 Ok1) TS HT Er) as (_ & _ & Ps). intros tr t I. rewrite (P1 tr t I). apply (Ps tr t I). }
    destruct INV as [[W' NN'] P]. pose proof (ct_density_nonneg m ("init"%string :: u ++ x :: x :: v, d) W' NN') as Q. specialize (P _ _ J). rewrite Z in P.
    destruct Q as [Q|Q]; [apply P in Q; lra|symmetry; exact Q].
Qed.
Print Assumptions C131_CTMC_default_refuted.

(** Timed traces without 'init' cannot be learned from. *)
Lemma mmap_hd_err {A B} (f : A -> res B) x l e : f x = Err e -> mmap f (x :: l) = Err e.
Proof. intros E. cbn [mmap]. rewrite E. reflexivity. Qed.
Theorem C131_CTMC_without_init_refuted : forall (eqe : pv R -> pv R -> bool) (s : tset (list (pv R))) nb ri lo hi loop nd name dr processes eps max_it,
  decides_eq eqe -> ty s = Some 4%Z -> seqs s <> [] -> (forall t, In t (seqs s) -> timed t) -> ~ at_even (seqs s) (VStr "init") ->
  forall result, fit_random eqe (UserSet s) nb ri lo hi loop nd name dr processes eps max_it <> Ok result.
Proof.
  intros eqe s nb ri lo hi loop nd name dr p eps mx EQ T NE W NI result. unfold fit_random. destruct nb as [n|]; [|discriminate].
  destruct (prepare_spec eqe EQ None s) as (pr & E & _ & [(H & P)|(_ & P)]).
  - right. right. right. exact T.
  - intros T1. congruence.
  - exfalso. destruct H as [H|[H|H]]; [congruence|discriminate|]. unfold has_init in H. rewrite T in H. contradiction.
  - rewrite E. cbn [bind]. unfold createInitialModel. rewrite P. cbn [ty]. rewrite T. destruct lo as [lo|]; [|discriminate]. destruct hi as [hi|]; [|discriminate].
    destruct (match pr_alphabet pr with Some al => strings al | None => Err AttributeError end) as [al|]; [|discriminate]. cbn [bind].
    destruct (CTMC_random _ _ _ _ _ _ _ _ _ _) as [m|]; [|discriminate]. cbn [bind job_of]. cbn [seqs times].
    destruct (seqs s) as [|t0 r] eqn:Es; [congruence|]. cbn [map]. destruct (W t0 (or_introl eq_refl)) as (O & Ev & _).
    destruct t0 as [|x t0]; [discriminate|]. destruct (Ev 0%nat x eq_refl) as (l & ->).
    rewrite (mmap_hd_err _ _ _ TypeError) by reflexivity. discriminate.
Qed.
Print Assumptions C131_CTMC_without_init_refuted.

(** The two bounds on the waiting times are needed. *)
Theorem C131_CTMC_bounds_missing : forall (eqe : pv R -> pv R -> bool) T ts n ri lo hi loop nd name dr processes eps max_it,
  decides_eq eqe -> good_timed T ts -> lo = None \/ hi = None ->
  fit_random eqe (UserSet (timed_label_set T ts)) (Some n) ri lo hi loop nd name dr processes eps max_it = Err RuntimeError.
Proof.
  intros eqe T ts n ri lo hi loop nd name dr p eps mx EQ GS H. destruct (prepare_timed eqe T ts EQ GS) as (al & EP & _ & _). unfold fit_random. rewrite EP. cbn [bind].
  unfold createInitialModel. cbn [pr_set ty timed_label_set]. destruct H as [-> | ->]; [reflexivity|destruct lo; reflexivity].
Qed.
Print Assumptions C131_CTMC_bounds_missing.

