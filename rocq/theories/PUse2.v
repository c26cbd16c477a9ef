(** Theorems C133, C134 for CTMCs learned from untimed traces, simulation of
    learned CTMCs, and C134 for GoHMMs. *)
From Coq Require Import String ZArith Bool Reals List Lra Lia.
From Verif Require Import Num Py SNum LSum SPath LPath MTools MSet MModels LBW SBW SLik MCtor SCtor LCtor PCtor SRun LRun MRun PRun PRun3 MLik LLik PLik MBW LBWMC LBWHMM LBWMDP LBWCT LBWGO LBWLoop PBWMC PBWHMM PBWMDP PBWCT PBWCTU PBWGO MText SText PText MPrism SPrism PPrism MStorm SStorm LStorm PStorm PGain2 PUse.
Import ListNotations.
Local Open Scope R_scope.

Lemma untimed_run (m m' : ctmc R) fixed p mx c set eps ll st :
  wf_ctmc m -> nonneg_mat (ct_mat m) -> live m -> no_fixed fixed -> pos_times set ->
  bw_loop (round_CTMC_untimed p fixed set) eps mx None 0 m = Ok (m', c, ll, st) ->
  (wf_ctmc m' /\ nonneg_mat (ct_mat m')) /\ live m' /\ ct_frame m m' /\
  bw_loop (round_MC p set) eps mx None 0 (jump_chain m) = Ok (jump_chain m', c, ll, st).
Proof.
  intros W N Lv NF HT E.
  pose proof (C46_ctmc_untimed_run_is_jump_chain_run m fixed p mx set eps W N Lv NF HT) as F. rewrite E in F. cbn [image] in F.
  apply (bw_loop_inv _ _ (fun x => ct_ok x /\ live x /\ ct_frame m x)) in E.
  - destruct E as (O & L & Fr). split; [exact O|]. split; [exact L|]. split; [exact Fr|exact F].
  - intros x x' l (Ox & Lx & (A & B & C & D)) Er. destruct (round_untimed x fixed p _ x' l Ox Lx NF HT Er) as (_ & O' & L' & (A' & B' & C' & D') & _).
    split; [exact O'|]. split; [exact L'|]. repeat split; congruence.
  - split; [split; assumption|]. split; [exact Lv|]. repeat split.
Qed.
(** A rate that is zero stays zero. *)
Lemma untimed_zero (m m' : ctmc R) fixed p mx c set eps ll st s s' :
  wf_ctmc m -> nonneg_mat (ct_mat m) -> live m -> no_fixed fixed -> pos_times set ->
  bw_loop (round_CTMC_untimed p fixed set) eps mx None 0 m = Ok (m', c, ll, st) ->
  (s < ct_n m)%nat -> (s' < ct_n m)%nat -> rate m s s' = 0 -> rate m' s s' = 0.
Proof.
  intros W N Lv NF HT E Hs Hs' Z. destruct (untimed_run m m' fixed p mx c set eps ll st W N Lv NF HT E) as ((W' & N') & Lv' & (A & _) & F).
  assert (Q : matR (mc_mat (jump_chain m')) s s' = 0).
  { apply (C37_mc_zero_stays_zero (jump_chain m) (jump_chain m') p mx c s s' set eps ll st); auto.
    - apply jc_wf, W.
    - apply jc_nonneg, N.
    - rewrite jc_n; exact Hs.
    - rewrite jc_n; exact Hs'.
    - rewrite jc_mat by exact W. unfold jump. unfold rate in Z. rewrite Z. unfold Rdiv. ring. }
  rewrite jc_mat in Q by exact W'. unfold jump in Q. specialize (Lv' s ltac:(lia)). unfold rate.
  apply Rmult_integral in Q. destruct Q as [Q|Q]; [exact Q|]. pose proof (Rinv_0_lt_compat _ Lv'). lra.
Qed.

Theorem C133_CTMC_untimed : forall (matrix : list (list R)) labels name (m m' : ctmc R) fixed (p max_it c : nat) set (eps : R) ll stopped,
  CTMC_new matrix labels name = Ok m -> square (length matrix) matrix -> nonneg_mat matrix -> (forall r, In r matrix -> 0 < rsum r) -> no_fixed fixed -> pos_times set ->
  bw_loop (round_CTMC_untimed p fixed set) eps max_it None 0 m = Ok (m', c, ll, stopped) ->
  CTMC_new (ct_mat m') labels name = Ok m' /\ square (length matrix) (ct_mat m') /\ nonneg_mat (ct_mat m') /\ (forall r, In r (ct_mat m') -> 0 < rsum r) /\
  (forall (TK : Text R), one_line name -> writable_vec (ct_ini m') -> writable_mat (ct_mat m') -> loadCTMC (ctmc_save m') = Ok m') /\
  (forall (TK : Text R), label_count "init" labels = 1%nat -> exists t, ctmc_savePrism m' = Ok t) /\
  (forall zeros, stormpy_to_CTMC false (CTMCtoStormpy zeros m') = Ok (mkCTMC (ct_mat m') (map storm_label labels) (ct_ini m') "unknown_CTMC")).
Proof.
  intros matrix labels name m m' fixed p mx c set eps ll st E Sq N Po NF HT F.
  destruct (C16_CTMC_constructor matrix labels name) as (A0 & X & _). destruct (X m E) as (Em & El & En & U1 & U2 & _).
  destruct (proj1 A0 (ex_intro _ m E)) as (_ & L).
  assert (W : wf_ctmc m). { unfold wf_ctmc, ct_n. rewrite Em, El. split; [exact Sq|]. split; [exact L|]. split; [congruence|apply U2]. }
  assert (Lv : live m). { intros s Hs. unfold exit_rate. apply Po. rewrite <- Em. apply nth_In. exact Hs. }
  rewrite <- Em in N. destruct (untimed_run m m' fixed p mx c set eps ll st W N Lv NF HT F) as ((W' & N') & Lv' & (A & B & C & D) & _).
  pose proof (ct_refit matrix labels name m m' E A B C D) as E'.
  assert (Sq' : square (length (ct_mat m')) (ct_mat m')) by apply W'.
  assert (LM : length (ct_mat m') = length matrix) by (unfold ct_n in A; congruence).
  assert (Po' : forall r, In r (ct_mat m') -> 0 < rsum r).
  { intros r I. apply (In_nth _ _ []) in I. destruct I as [s [Hs <-]]. apply (Lv' s Hs). }
  split; [rewrite <- El, <- En, <- B, <- D; exact E'|]. split; [rewrite <- LM; exact Sq'|]. split; [exact N'|]. split; [exact Po'|]. split; [|split].
  - intros TK L1 L2 L3. apply C65_CTMC_save_load; auto. rewrite D, En. exact L1.
  - intros TK L1. apply (C67_CTMC_savePrism TK _ _ _ m' E'). rewrite B, El. exact L1.
  - intros z. rewrite (C123_CTMC z _ _ _ m' E' Sq'); [rewrite B, El; reflexivity|]. intros r I. specialize (Po' r I). lra.
Qed.
Print Assumptions C133_CTMC_untimed.

Lemma ct_density_below (m m' : ctmc R) labels times : wf_ctmc m -> nonneg_mat (ct_mat m) -> nonneg_mat (ct_mat m') -> ct_frame m m' ->
  (forall s s', (s < ct_n m)%nat -> (s' < ct_n m)%nat -> rate m s s' = 0 -> rate m' s s' = 0) ->
  0 < ct_density m' (labels, times) -> 0 < ct_density m (labels, times).
Proof.
  intros W N N' (A & B & C & D) Zr. unfold ct_density. cbn [fst snd]. rewrite A, B, C. apply trace_below.
  - apply belowv_refl. intros i Hi. destruct W as (_ & _ & Li & Ni). apply Ni. unfold vecR. apply nth_In. lia.
  - apply Forall2_map2. intros t _ i j Hi Hj. unfold jump_density. apply zero_below.
    + apply Rmult_le_pos; [apply matR_nonneg, N|left; apply exp_pos].
    + apply Rmult_le_pos; [apply matR_nonneg, N'|left; apply exp_pos].
    + intros Z. change (rate m' i j * exp (- (exit_rate m' i * t)) = 0). rewrite (Zr i j Hi Hj); [lra|].
      apply Rmult_integral in Z as [Z|Z]; [exact Z|]. pose proof (exp_pos (- (exit_rate m i * t))). lra.
  - apply Forall2_map2. intros o _. apply belowv_refl. intros i _. apply is_label_nonneg.
Qed.

(** Untimed traces: what the learned model can do, timed or not, was possible
    before; training traces stay possible; every completed simulation was
    possible before. *)
Theorem C134_CTMC_untimed : forall (m m' : ctmc R) fixed (p max_it c : nat) set (eps : R) ll stopped,
  wf_ctmc m -> nonneg_mat (ct_mat m) -> live m -> is_dist (ct_ini m) -> no_fixed fixed -> pos_times set ->
  bw_loop (round_CTMC_untimed p fixed set) eps max_it None 0 m = Ok (m', c, ll, stopped) ->
  (forall tr, 0 < ct_trace_prob m' tr -> 0 < ct_trace_prob m tr) /\
  (forall labels times, 0 < ct_density m' (labels, times) -> 0 < ct_density m (labels, times)) /\
  (forall tr t, In (tr, t) set -> tr <> [] -> 0 < ct_trace_prob m tr -> 0 < ct_trace_prob m' tr) /\
  live m' /\
  (forall (steps : nat) r0 samples, unit_draw r0 ->
     (forall i s, (s < ct_n m)%nat -> exists k, (k < ct_n m)%nat /\ 0 < matR (ct_mat m') s k /\ samples i k < 1024) ->
     exists tr, ct_run m' (Z.of_nat steps) r0 samples = Ok tr /\ length (fst tr) = steps /\
       0 < ct_density m (map fst (fst tr) ++ [snd tr], map snd (fst tr))).
Proof.
  intros m m' fixed p mx c set eps ll st W N Lv DI NF HT E.
  destruct (untimed_run m m' fixed p mx c set eps ll st W N Lv NF HT E) as ((W' & N') & Lv' & Fr & F).
  pose proof Fr as (A & B & C & D).
  destruct (C134_MC (jump_chain m) (jump_chain m') p mx c set eps ll st) as (P1 & P2 & _); auto.
  { apply jc_wf, W. }
  { split; [apply jc_nonneg, N|apply jc_rows; assumption]. }
  assert (P3 : forall labels times, 0 < ct_density m' (labels, times) -> 0 < ct_density m (labels, times)).
  { intros labels times. apply ct_density_below; auto. intros s s'. apply (untimed_zero m m' fixed p mx c set eps ll st s s' W N Lv NF HT E). }
  split; [|split; [exact P3|split; [|split; [exact Lv'|]]]].
  - intros tr. rewrite <- !jc_trace_prob by assumption. apply P1.
  - intros tr t I NE. rewrite <- !jc_trace_prob by assumption. apply (P2 tr t I NE).
  - intros steps r0 samples U H. rewrite <- A in H.
    assert (DI' : is_dist (ct_ini m')) by (rewrite C; exact DI).
    destruct (C25_ctmc_run_partial m' steps r0 samples W' DI' U H) as (s & x & _ & _ & _ & Er).
    destruct (C25_ctmc_run_possible m' steps r0 samples _ W' N' DI' U H Er) as [L P].
    eexists. split; [exact Er|]. split; [exact L|]. apply P3. exact P.
Qed.
Print Assumptions C134_CTMC_untimed.

(** Simulation of a CTMC learned from timed traces. *)
Theorem C134_CTMC_timed_run : forall (m m' : ctmc R) fixed (p max_it c : nat) set (eps : R) ll stopped (steps : nat) r0 samples,
  wf_ctmc m -> nonneg_mat (ct_mat m) -> is_dist (ct_ini m) -> timed_set set -> pos_times set ->
  bw_loop (round_CTMC_timed p fixed set) eps max_it None 0 m = Ok (m', c, ll, stopped) ->
  unit_draw r0 ->
  (forall i s, (s < ct_n m)%nat -> exists k, (k < ct_n m)%nat /\ 0 < matR (ct_mat m') s k /\ samples i k < 1024) ->
  exists tr, ct_run m' (Z.of_nat steps) r0 samples = Ok tr /\ length (fst tr) = steps /\
    0 < ct_density m (map fst (fst tr) ++ [snd tr], map snd (fst tr)).
Proof.
  intros m m' fixed p mx c set eps ll st steps r0 samples W N DI HS HT F U H.
  destruct (C41_ctmc_timed_fit_likelihood m m' fixed p mx c set eps ll st W N HS HT F) as (W' & N' & (A & B & C & D) & _).
  destruct (C134_CTMC_timed m m' fixed p mx c set eps ll st W N HS HT F) as [P3 _].
  rewrite <- A in H. assert (DI' : is_dist (ct_ini m')) by (rewrite C; exact DI).
  destruct (C25_ctmc_run_partial m' steps r0 samples W' DI' U H) as (s & x & _ & _ & _ & Er).
  destruct (C25_ctmc_run_possible m' steps r0 samples _ W' N' DI' U H Er) as [L P].
  eexists. split; [exact Er|]. split; [exact L|]. apply P3. exact P.
Qed.
Print Assumptions C134_CTMC_timed_run.

(** ** GoHMMs: one round in general, a whole fit for complete models *)
Lemma go_density_below d (m m' : gohmm R) k tr : wf_gohmm d m -> wf_gohmm d m' -> nonneg_mat (go_mat m) -> nonneg_mat (go_mat m') -> go_n m' = go_n m -> pos_sigma d m -> pos_sigma d m' ->
  (forall s s', (s < go_n m)%nat -> (s' < go_n m)%nat -> matR (go_mat m) s s' = 0 -> matR (go_mat m') s s' = 0) ->
  (forall s, (s < go_n m)%nat -> vecR (go_ini m) s = 0 -> vecR (go_ini m') s = 0) -> (forall o, In o tr -> length o = d) ->
  0 < trace_prob (go_n m) (vecR (go_ini m')) (repeat (matR (go_mat m')) k) (map (go_density m') tr) ->
  0 < trace_prob (go_n m) (vecR (go_ini m)) (repeat (matR (go_mat m)) k) (map (go_density m) tr).
Proof.
  intros W W' N N' Hn Sg Sg' Z1 Z2 Hd. apply trace_below.
  - intros i Hi. apply zero_below.
    + destruct W as (_ & _ & _ & Li & Ni). apply Ni. unfold vecR. apply nth_In. lia.
    + destruct W' as (_ & _ & _ & Li & Ni). apply Ni. unfold vecR. apply nth_In. lia.
    + apply Z2, Hi.
  - apply Forall2_repeat. apply below_zero; [intros i j _ _; split; apply matR_nonneg; assumption|exact Z1].
  - apply Forall2_map2. intros o Io i Hi. pose proof (go_density_pos d m o i Sg Hi (Hd o Io)). pose proof (go_density_pos d m' o i Sg' ltac:(lia) (Hd o Io)).
    split; [lra|]. split; [lra|]. intros _. assumption.
Qed.
Theorem C134_GoHMM_round : forall (d : nat) (m m' : gohmm R) (p : nat) set (ll : R),
  wf_gohmm d m -> pos_sigma d m -> stochastic (go_mat m) -> rsum (go_ini m) = 1 -> obs_dim d set -> pos_times set ->
  round_GoHMM p d set m = Ok (m', ll) -> pos_sigma d m' ->
  (forall tr, (forall o, In o tr -> length o = d) -> 0 < go_trace_density m' tr -> 0 < go_trace_density m tr) /\
  (forall tr t, In (tr, t) set -> (0 < go_trace_density_move m tr <-> 0 < go_trace_density_move m' tr)) /\
  (forall (steps : nat) draws normal, (forall k, unit_draw (draws k)) ->
     exists tr, go_run m' (Z.of_nat steps) (-1) draws normal = Ok tr /\ length tr = steps /\ forall o, In o tr -> length o = d).
Proof.
  intros d m m' p set ll W Sg St Si Hd HT E Sg'.
  assert (Sb : go_sub m) by (split; [split; [apply St|intros r I; rewrite (proj2 St r I); lra]|lra]).
  destruct (round_go_ok d m set p m' ll (conj W (proj1 St)) Sg Hd E HT) as ([W' N'] & A & B & S1).
  pose proof (grow_rule d m set p m' ll (fun v => v = 1) (conj W (proj1 St)) Sg Hd E eq_refl (proj2 St)) as Q'.
  destruct (C37_gohmm_zero_stays_zero d m m' p set ll W Sg (proj1 St) Hd HT E) as [Z1 Z2].
  split; [|split].
  - intros tr Ht. unfold go_trace_density. rewrite A. apply (go_density_below d); auto. apply St.
  - apply (C71_gohmm_round_likelihood d m m' p set ll W Sg Sb Hd HT E Sg').
  - intros steps draws nrm U. destruct W' as (Sq & Lo & Ro & Li & Ni).
    destruct (C23_gohmm_run m' steps draws nrm Sq Lo Li) as (s & x & Lx & Sx & Fx & Er).
    { apply stochastic_dist. split; assumption. }
    { split; assumption. }
    { exact U. }
    exists (go_emitted m' nrm 1 s x). split; [exact Er|].
    assert (G : forall x i s, (s < go_n m')%nat -> follows (go_row m') draws i s x -> length (go_emitted m' nrm i s x) = length x /\ forall o, In o (go_emitted m' nrm i s x) -> length o = d).
    { clear - Lo Ro Sq. destruct Sq as [Lm Lr]. induction x as [|y x IH]; intros i s Hs Fo; cbn [go_emitted]; [split; [reflexivity|intros o []]|].
      cbn [follows] in Fo. destruct Fo as [F1 F2]. assert (Hy : (y < go_n m')%nat).
      { destruct F1 as [F1 _]. unfold go_row in F1. rewrite (Lr (nth s (go_mat m') [])) in F1 by (apply nth_In; unfold go_n in *; lia). exact F1. }
      destruct (IH (S i) y Hy F2) as [I1 I2]. split; [cbn; congruence|]. intros o [<-|I]; [|apply I2, I].
      rewrite map_length, seq_length. apply Ro, nth_In. lia. }
    assert (Hs : (s < go_n m')%nat) by (destruct Sx as [Sx _]; lia). destruct (G x 1%nat s Hs Fx) as [G1 G2]. split; [congruence|exact G2].
Qed.
Print Assumptions C134_GoHMM_round.

(** A complete model stays complete: every trace of the right dimension is
    possible before and after. *)
Theorem C134_GoHMM : forall (d : nat) (m m' : gohmm R) (p max_it c : nat) set (eps : R) ll stopped,
  wf_gohmm d m -> stochastic (go_mat m) -> rsum (go_ini m) = 1 -> go_full d m -> obs_dim d set -> pos_times set -> varied d set ->
  bw_loop (round_GoHMM p d set) eps max_it None 0 m = Ok (m', c, ll, stopped) ->
  (forall tr, tr <> [] -> (forall o, In o tr -> length o = d) -> 0 < go_trace_density m tr /\ 0 < go_trace_density m' tr) /\
  (forall (steps : nat) draws normal, (forall k, unit_draw (draws k)) -> (0 < steps)%nat ->
     exists tr, go_run m' (Z.of_nat steps) (-1) draws normal = Ok tr /\ length tr = steps /\ 0 < go_trace_density m' tr /\ 0 < go_trace_density m tr).
Proof.
  intros d m m' p mx c set eps ll st W St Si Fu Hd HT V F.
  assert (Full : forall x, wf_gohmm d x -> stochastic (go_mat x) -> go_full d x -> forall tr, tr <> [] -> (forall o, In o tr -> length o = d) -> 0 < go_trace_density x tr).
  { intros x Wx [Nx _] (H0 & Sg & Pm & Pi) tr NE Ht. unfold go_trace_density.
    assert (Pt : forall tr k s, (s < go_n x)%nat -> (forall o, In o tr -> length o = d) -> length tr = S k -> 0 < path_weight (repeat (matR (go_mat x)) k) (map (go_density x) tr) (repeat s (length tr))).
    { clear - Sg Pm. induction tr as [|o tr IH]; intros k s Hs Ht L; [discriminate|]. cbn [map length repeat path_weight].
      pose proof (go_density_pos d x o s Sg Hs (Ht o (or_introl eq_refl))) as Pd.
      destruct tr as [|o' tr]; destruct k as [|k]; try discriminate; [cbn; rewrite Rmult_1_r; exact Pd|].
      apply Rmult_lt_0_compat; [exact Pd|]. apply Rmult_lt_0_compat; [apply Pm; assumption|]. apply (IH k s Hs); [intros; apply Ht; right; assumption|cbn in *; lia]. }
    assert (L : exists k, length tr = S k) by (destruct tr as [|o0 tr0]; [exfalso; apply NE; reflexivity|exists (length tr0); reflexivity]). destruct L as [k L].
    apply (trace_prob_pos (go_n x) _ _ _ (repeat 0%nat (length tr))).
    - rewrite repeat_length, map_length. reflexivity.
    - intros i I. apply repeat_spec in I. subst. exact H0.
    - intros i Hi. left. apply Pi, Hi.
    - intros A i j I Hi Hj. apply repeat_spec in I. subst. left. apply Pm; assumption.
    - intros B i I Hi. apply in_map_iff in I. destruct I as [o [<- Io]]. left. apply (go_density_pos d); auto.
    - destruct tr; [congruence|discriminate].
    - rewrite L. cbn. apply Pi, H0.
    - rewrite L. cbn [Nat.sub]. rewrite Nat.sub_0_r. rewrite <- L. apply Pt; auto. }
  assert (Good : go_good d m').
  { apply (bw_loop_inv _ _ (go_good d)) in F; [exact F| |split; [exact W|split; [exact St|split; assumption]]].
    intros x x' l G Er. apply (go_good_round d set p x x' l G Hd HT V Er). }
  destruct Good as (W' & St' & Si' & Fu').
  assert (P : forall tr, tr <> [] -> (forall o, In o tr -> length o = d) -> 0 < go_trace_density m tr /\ 0 < go_trace_density m' tr).
  { intros tr NE Ht. split; apply Full; assumption. }
  split; [exact P|]. intros steps draws nrm U Hs0.
  pose proof W' as (Sq & Lo & Ro & Li & Ni).
  destruct (C23_gohmm_run m' steps draws nrm Sq Lo Li) as (s & x & Lx & Sx & Fx & Er).
  { apply stochastic_dist. exact St'. }
  { split; assumption. }
  { exact U. }
  exists (go_emitted m' nrm 1 s x). split; [exact Er|].
  assert (G : forall x i s, (s < go_n m')%nat -> follows (go_row m') draws i s x -> length (go_emitted m' nrm i s x) = length x /\ forall o, In o (go_emitted m' nrm i s x) -> length o = d).
  { clear - Lo Ro Sq. destruct Sq as [Lm Lr]. induction x as [|y x IH]; intros i s Hs Fo; cbn [go_emitted]; [split; [reflexivity|intros o []]|].
    cbn [follows] in Fo. destruct Fo as [F1 F2]. assert (Hy : (y < go_n m')%nat).
    { destruct F1 as [F1 _]. unfold go_row in F1. rewrite (Lr (nth s (go_mat m') [])) in F1 by (apply nth_In; unfold go_n in *; lia). exact F1. }
    destruct (IH (S i) y Hy F2) as [I1 I2]. split; [cbn; congruence|]. intros o [<-|I]; [|apply I2, I].
    rewrite map_length, seq_length. apply Ro, nth_In. lia. }
  assert (Hs : (s < go_n m')%nat) by (destruct Sx as [Sx _]; lia). destruct (G x 1%nat s Hs Fx) as [G1 G2]. split; [congruence|].
  destruct (P (go_emitted m' nrm 1 s x)) as [P1 P2]; [|exact G2|split; assumption]. intros Z. rewrite Z in G1. cbn in G1. lia.
Qed.
Print Assumptions C134_GoHMM.

Definition use2_ct : ctmc R := mkCTMC [[0; 2]; [3; 0]] ["init"; "b"]%string [1; 0] "ex"%string.
Definition use2_set : list (list string * Z) := [(["init"; "b"; "init"]%string, 2%Z)].
Example C133_C134_untimed_instance : CTMC_new (ct_mat use2_ct) (ct_lab use2_ct) "ex" = Ok use2_ct /\ square 2 (ct_mat use2_ct) /\ nonneg_mat (ct_mat use2_ct) /\
  live use2_ct /\ no_fixed [] /\ is_dist (ct_ini use2_ct) /\ pos_times use2_set /\
  exists m' c ll b, bw_loop (round_CTMC_untimed 1 [] use2_set) 1 1 None 0 use2_ct = Ok (m', c, ll, b).
Proof.
  assert (Sq : square 2 (ct_mat use2_ct)) by (split; [reflexivity|intros r [<-|[<-|[]]]; reflexivity]).
  assert (W : wf_ctmc use2_ct) by (unfold wf_ctmc; split; [exact Sq|split; [reflexivity|split; [reflexivity|intros v [<-|[<-|[]]]; lra]]]).
  assert (N : nonneg_mat (ct_mat use2_ct)) by (intros r [<-|[<-|[]]] v [<-|[<-|[]]]; lra).
  assert (Lv : live use2_ct) by (intros s Hs; unfold ct_n in Hs; cbn in Hs; destruct s as [|[|s]]; [| |lia]; unfold exit_rate; cbn; lra).
  assert (NF : no_fixed []) by (intros s s'; destruct s, s'; reflexivity).
  assert (P : forall tr t, In (tr, t) use2_set -> 0 < mc_trace_prob_move (jump_chain use2_ct) tr).
  { intros tr t [E|[]]; inversion E; subst. unfold mc_trace_prob_move, trace_prob, sumL, jump, exit_rate, is_label; cbn. unfold jump, exit_rate. cbn. lra. }
  split; [|split; [exact Sq|split; [exact N|split; [exact Lv|split; [exact NF|split; [split; [apply W|cbn; lra]|split; [intros st [<-|[]]; cbn; lia|]]]]]]].
  - destruct (C16_CTMC_constructor (ct_mat use2_ct) (ct_lab use2_ct) "ex") as (A & B & _). destruct (proj2 A) as [m E0].
    + split; [left; reflexivity|reflexivity].
    + rewrite E0. f_equal. destruct (B m E0) as (E1 & E2 & E3 & E4 & _ & E5). destruct m as [mat lab ini name]. cbn in E1, E2, E3, E4. cbn [ct_ini] in E5. subst. unfold use2_ct. f_equal.
      apply (nth_ext _ _ 0 0); [exact E4|]. intros n Hn. rewrite E4 in Hn. change (nth n ini 0) with (vecR ini n). rewrite E5 by exact Hn.
      destruct n as [|[|n]]; cbn in *; [unfold label_count; cbn; lra|reflexivity|lia].
  - destruct (round_mc_succeeds (jump_chain use2_ct) use2_set 1) as [c [ll Er]].
    { apply jc_ok; split; assumption. }
    { exists ["init"; "b"; "init"]%string, 2%Z. split; [left; reflexivity|]. apply (P _ 2%Z). left; reflexivity. }
    { right. exact P. }
    pose proof (jc_fits use2_ct [] 1 use2_set W NF) as F. rewrite Er in F.
    destruct (round_CTMC_untimed 1 [] use2_set use2_ct) as [[m' l]|] eqn:E; [|destruct F].
    do 4 eexists. apply one_round, E.
Qed.
Example C134_GoHMM_instance : wf_gohmm 1 ex_go /\ stochastic (go_mat ex_go) /\ rsum (go_ini ex_go) = 1 /\ go_full 1 ex_go /\ obs_dim 1 (weighted ex_gset) /\
  pos_times (weighted ex_gset) /\ varied 1 (weighted ex_gset) /\ exists m' c ll b, bw_loop (round_GoHMM 1 1 (weighted ex_gset)) 1 1 None 0 ex_go = Ok (m', c, ll, b).
Proof.
  destruct C71_C75_instance as (W & S & Si & F & U & Ho & V & _).
  assert (Hd : obs_dim 1 (weighted ex_gset)) by (intros tr t I o Io; apply in_combine_l in I; eauto).
  assert (HT : pos_times (weighted ex_gset)).
  { intros [tr t] I. apply in_combine_r in I. destruct U as [_ [Po _]]. specialize (Po t I). cbn. lia. }
  destruct (full_round_succeeds 1 ex_go (weighted ex_gset) 1 W F Hd) as [m' [ll E]]; [discriminate|].
  repeat split; auto; try apply W; try apply S; try apply F; try apply V. do 4 eexists. apply one_round, E.
Qed.
