(** Theorems C133, C134: a learned model can be used like any other. *)
From Coq Require Import String ZArith Bool Reals List Lra Lia.
From Verif Require Import Num Py SNum LSum SPath LPath MTools MSet MModels LBW SBW SLik MCtor SCtor LCtor PCtor SRun LRun MRun PRun MLik LLik PLik MBW LBWMC LBWHMM LBWMDP LBWCT LBWGO LBWLoop PBWMC PBWHMM PBWMDP PBWCT PBWGO MText SText PText MPrism SPrism PPrism MStorm SStorm LStorm PStorm.
Import ListNotations.
Local Open Scope R_scope.

(** ** C133: the attributes of a learned model are accepted by its constructor,
    which gives the same model back *)

Lemma mc_refit (matrix : list (list R)) labels name m m' :
  MC_new matrix labels name = Ok m -> mc_n m' = mc_n m -> mc_lab m' = mc_lab m -> mc_ini m' = mc_ini m -> mc_name m' = mc_name m ->
  (forall r, In r (mc_mat m') -> row_ok (rsum r)) -> MC_new (mc_mat m') (mc_lab m') (mc_name m') = Ok m'.
Proof.
  unfold MC_new. destruct (base_mc_init (length matrix) labels) as [ini|] eqn:B; [|discriminate]. cbn [bind].
  destruct (forallb checkProbabilities matrix); [|discriminate]. intros [= <-] A L I N Q. destruct m' as [mat' lab' ini' name'].
  unfold mc_n in A. cbn [mc_mat mc_lab mc_ini mc_name] in *. subst. rewrite A, B. cbn [bind]. apply check_rows in Q. rewrite Q. reflexivity.
Qed.
Lemma ct_refit (matrix : list (list R)) labels name m m' :
  CTMC_new matrix labels name = Ok m -> ct_n m' = ct_n m -> ct_lab m' = ct_lab m -> ct_ini m' = ct_ini m -> ct_name m' = ct_name m ->
  CTMC_new (ct_mat m') (ct_lab m') (ct_name m') = Ok m'.
Proof.
  unfold CTMC_new. destruct (base_mc_init (length matrix) labels) as [ini|] eqn:B; [|discriminate]. cbn [bind].
  intros [= <-] A L I N. destruct m' as [mat' lab' ini' name'].
  unfold ct_n in A. cbn [ct_mat ct_lab ct_ini ct_name] in *. subst. rewrite A, B. reflexivity.
Qed.
Lemma mdp_refit (matrix : list (list (list R))) labels actions name m m' :
  MDP_new matrix labels actions name = Ok m -> same_frame m m' ->
  (forall ra, In ra (mdp_mat m') -> length ra = length (mdp_act m')) -> mdp_rows row_ok m' ->
  MDP_new (mdp_mat m') (mdp_lab m') (mdp_act m') (mdp_name m') = Ok m'.
Proof.
  unfold MDP_new. destruct (base_mc_init (length matrix) labels) as [ini|] eqn:B; [|discriminate]. cbn [bind].
  destruct (mdp_rows_ok (length actions) matrix) as [[]|]; [|discriminate]. cbn [bind]. intros [= <-] (A & L & C & I & N) H Q.
  unfold mdp_n in A. cbn [mdp_mat mdp_lab mdp_act mdp_ini mdp_name] in *. rewrite A, L, B. cbn [bind].
  assert (E : mdp_rows_ok (length (mdp_act m')) (mdp_mat m') = Ok tt).
  { apply mdp_rows_ok_spec. intros r Ir a La. pose proof (H r Ir) as Lr. apply (In_nth _ _ []) in Ir. destruct Ir as [s [Hs <-]].
    exists (nth a (nth s (mdp_mat m') []) []). split; [apply nth_error_nth'; lia|]. apply (Q s a Hs La). }
  rewrite E. cbn [bind]. destruct m'. cbn in *. congruence.
Qed.

Lemma fit_mc_frame (m m' : mc R) p mx c set eps ll st : wf_mc m -> nonneg_mat (mc_mat m) -> pos_times set ->
  (forall r, In r (mc_mat m) -> row_ok (rsum r)) ->
  bw_loop (round_MC p set) eps mx None 0 m = Ok (m', c, ll, st) ->
  mc_ok m' /\ (forall r, In r (mc_mat m') -> row_ok (rsum r)) /\ mc_n m' = mc_n m /\ mc_lab m' = mc_lab m /\ mc_ini m' = mc_ini m /\ mc_name m' = mc_name m.
Proof.
  intros W N HT Q E.
  apply (bw_loop_inv _ _ (fun x => mc_ok x /\ (forall r, In r (mc_mat x) -> row_ok (rsum r)) /\ mc_n x = mc_n m /\ mc_lab x = mc_lab m /\ mc_ini x = mc_ini m /\ mc_name x = mc_name m)) in E.
  - exact E.
  - intros x x' l (O1 & Q1 & A & B & C & D) Er. destruct (round_mc_ok x set p x' l O1 Er HT) as (O2 & A' & B' & C' & D').
    split; [exact O2|]. split; [|repeat split; congruence]. apply (row_rule x set p x' l row_ok O1 Er); [apply row_ok_one; reflexivity|exact Q1].
  - split; [split; assumption|]. auto.
Qed.
Lemma mc_new_wf (matrix : list (list R)) labels name m : MC_new matrix labels name = Ok m -> square (length matrix) matrix ->
  wf_mc m /\ mc_mat m = matrix /\ (forall r, In r matrix -> row_ok (rsum r)) /\ is_dist (mc_ini m).
Proof.
  intros E Sq. destruct (C16_MC_constructor matrix labels name) as (A & B & _). destruct (proj1 A (ex_intro _ m E)) as (_ & L & Q).
  destruct (B m E) as (Em & El & _ & U1 & U2 & _). split; [|split; [exact Em|split; [exact Q|exact U2]]].
  unfold wf_mc, mc_n. rewrite Em, El. split; [exact Sq|]. split; [exact L|]. split; [congruence|apply U2].
Qed.

Theorem C133_MC : forall (matrix : list (list R)) labels name (m m' : mc R) (p max_it c : nat) set (eps : R) ll stopped,
  MC_new matrix labels name = Ok m -> square (length matrix) matrix -> nonneg_mat matrix -> pos_times set ->
  bw_loop (round_MC p set) eps max_it None 0 m = Ok (m', c, ll, stopped) ->
  MC_new (mc_mat m') labels name = Ok m' /\ square (length matrix) (mc_mat m') /\
  (forall (TK : Text R), one_line name -> writable_vec (mc_ini m') -> writable_mat (mc_mat m') -> loadMC (mc_save m') = Ok m') /\
  (forall (TK : Text R), label_count "init" labels = 1%nat -> exists t, mc_savePrism m' = Ok t) /\
  (forall zeros, stormpy_to_MC (MCtoStormpy zeros m') = Ok (mkMC (mc_mat m') (map storm_label labels) (mc_ini m') "unknown_MC")).
Proof.
  intros matrix labels name m m' p mx c set eps ll st E Sq N HT F.
  destruct (mc_new_wf matrix labels name m E Sq) as (W & Em & Q & _). rewrite <- Em in N, Q.
  destruct (fit_mc_frame m m' p mx c set eps ll st W N HT Q F) as ([W' N'] & Q' & A & B & C & D).
  pose proof (mc_refit matrix labels name m m' E A B C D Q') as E'.
  destruct (C16_MC_constructor matrix labels name) as (_ & X & _). destruct (X m E) as (_ & El & En & _).
  assert (Sq' : square (length (mc_mat m')) (mc_mat m')) by apply W'.
  assert (LM : length (mc_mat m') = length matrix) by (unfold mc_n in A; congruence).
  split; [rewrite <- El, <- En, <- B, <- D; exact E'|]. split; [rewrite <- LM; exact Sq'|]. split; [|split].
  - intros TK L1 L2 L3. apply C65_MC_save_load; auto. rewrite D, En. exact L1.
  - intros TK L1. apply (C67_MC_savePrism TK _ _ _ m' E'). rewrite B, El. exact L1.
  - intros z. rewrite (C123_MC z _ _ _ m' E' Sq'), B, El. reflexivity.
Qed.
Print Assumptions C133_MC.

Theorem C133_CTMC_timed : forall (matrix : list (list R)) labels name (m m' : ctmc R) fixed (p max_it c : nat) set (eps : R) ll stopped,
  CTMC_new matrix labels name = Ok m -> square (length matrix) matrix -> nonneg_mat matrix -> timed_set set -> pos_times set ->
  bw_loop (round_CTMC_timed p fixed set) eps max_it None 0 m = Ok (m', c, ll, stopped) ->
  CTMC_new (ct_mat m') labels name = Ok m' /\ square (length matrix) (ct_mat m') /\ nonneg_mat (ct_mat m') /\
  (forall (TK : Text R), one_line name -> writable_vec (ct_ini m') -> writable_mat (ct_mat m') -> loadCTMC (ctmc_save m') = Ok m') /\
  (forall (TK : Text R), label_count "init" labels = 1%nat -> exists t, ctmc_savePrism m' = Ok t) /\
  (forall zeros, (forall r, In r (ct_mat m') -> rsum r <> 0) ->
     stormpy_to_CTMC false (CTMCtoStormpy zeros m') = Ok (mkCTMC (ct_mat m') (map storm_label labels) (ct_ini m') "unknown_CTMC")).
Proof.
  intros matrix labels name m m' fixed p mx c set eps ll st E Sq N HS HT F.
  destruct (C16_CTMC_constructor matrix labels name) as (A0 & X & _). destruct (X m E) as (Em & El & En & U1 & U2 & _).
  destruct (proj1 A0 (ex_intro _ m E)) as (_ & L).
  assert (W : wf_ctmc m). { unfold wf_ctmc, ct_n. rewrite Em, El. split; [exact Sq|]. split; [exact L|]. split; [congruence|apply U2]. }
  rewrite <- Em in N.
  destruct (C41_ctmc_timed_fit_likelihood m m' fixed p mx c set eps ll st W N HS HT F) as (W' & N' & (A & B & C & D) & _).
  pose proof (ct_refit matrix labels name m m' E A B C D) as E'.
  assert (Sq' : square (length (ct_mat m')) (ct_mat m')) by apply W'.
  assert (LM : length (ct_mat m') = length matrix) by (unfold ct_n in A; congruence).
  split; [rewrite <- El, <- En, <- B, <- D; exact E'|]. split; [rewrite <- LM; exact Sq'|]. split; [exact N'|]. split; [|split].
  - intros TK L1 L2 L3. apply C65_CTMC_save_load; auto. rewrite D, En. exact L1.
  - intros TK L1. apply (C67_CTMC_savePrism TK _ _ _ m' E'). rewrite B, El. exact L1.
  - intros z NZ. rewrite (C123_CTMC z _ _ _ m' E' Sq' NZ), B, El. reflexivity.
Qed.
Print Assumptions C133_CTMC_timed.

Theorem C133_MDP : forall (matrix : list (list (list R))) labels actions name (m m' : mdp R) (p max_it c : nat) set (eps : R) ll stopped,
  MDP_new matrix labels actions name = Ok m -> wf_mdp m -> nonneg_mdp m -> pos_times set ->
  bw_loop (round_MDP p set) eps max_it None 0 m = Ok (m', c, ll, stopped) ->
  MDP_new (mdp_mat m') labels actions name = Ok m' /\ wf_mdp m' /\
  (forall (TK : Text R), one_line name -> writable_vec (mdp_ini m') -> writable_ten (mdp_mat m') -> loadMDP (mdp_save m') = Ok m') /\
  (forall (TK : Text R), label_count "init" labels = 1%nat -> exists t, mdp_savePrism m' = Ok t).
Proof.
  intros matrix labels actions name m m' p mx c set eps ll st E W N HT F.
  destruct (C16_MDP_constructor matrix labels actions name) as (A0 & X & _). destruct (X m E) as (Em & El & Ea & En & _).
  destruct (proj1 A0 (ex_intro _ m E)) as (_ & L & Q).
  assert (Q0 : mdp_rows row_ok m).
  { intros s j Hs Hj. unfold row_total. rewrite Em. rewrite Ea in Hj. unfold mdp_n in Hs. rewrite Em in Hs.
    destruct (Q _ (nth_In matrix [] Hs) j Hj) as (x & Ex & Rx). rewrite (nth_error_nth _ _ [] Ex). exact Rx. }
  apply (bw_loop_inv _ _ (fun x => mdp_ok x /\ same_frame m x /\ mdp_rows row_ok x)) in F.
  - destruct F as ([W' N'] & FR & Q'). assert (HL : forall ra, In ra (mdp_mat m') -> length ra = length (mdp_act m')) by (intros ra I; apply (proj1 W' ra I)).
    pose proof (mdp_refit matrix labels actions name m m' E FR HL Q') as E'. destruct FR as (A & B & C & I & D).
    split; [rewrite <- El, <- Ea, <- En, <- B, <- C, <- D; exact E'|]. split; [exact W'|]. split.
    + intros TK L1 L2 L3. apply C65_MDP_save_load; auto. rewrite D, En. exact L1.
    + intros TK L1. apply (C67_MDP_savePrism TK _ _ _ _ m' E'). rewrite B, El. exact L1.
  - intros x x' l (O1 & F1 & Q1) Er. destruct (round_mdp_ok x set p x' l O1 Er HT) as [O2 F2]. split; [exact O2|].
    destruct F1 as (A1 & B1 & C1 & I1 & D1), F2 as (A2 & B2 & C2 & I2 & D2). split; [repeat split; congruence|].
    intros s j Hs Hj. rewrite A2 in Hs. rewrite C2 in Hj. destruct (mdp_row_rule x set p x' l O1 Er HT s j Hs Hj) as [-> | [-> _]]; [apply Q1; assumption|].
    apply row_ok_one; reflexivity.
  - split; [split; assumption|]. split; [repeat split|exact Q0].
Qed.
Print Assumptions C133_MDP.

Lemma new_ini_sum n i ini : ini_ok n i -> ini_vec n i ini -> 1/2 < rsum ini < 3/2.
Proof.
  destruct i as [z|l]; cbn [ini_ok ini_vec]; [|intros H ->; exact H]. intros Z [L H].
  assert (M : (0 <= z mod Z.of_nat n < Z.of_nat n)%Z) by (apply Z.mod_pos_bound; lia).
  set (j := Z.to_nat (z mod Z.of_nat n)). assert (ini = upd (repeat 0 n) j 1) as ->.
  { apply (nth_ext _ _ 0 0); [rewrite upd_length, repeat_length; exact L|]. intros s Hs. rewrite L in Hs. change (nth s ini 0) with (vecR ini s).
    rewrite H by exact Hs. rewrite upd_nth by (rewrite repeat_length; unfold j; lia). rewrite nth_repeat.
    destruct (Z.eqb_spec (Z.of_nat s) (z mod Z.of_nat n)); destruct (Nat.eqb_spec j s); try reflexivity; unfold j in *; lia. }
  rewrite upd_sum by (unfold j; lia). lra.
Qed.
Theorem C133_HMM : forall (matrix output : list (list R)) alphabet i name (m m' : hmm R) (p max_it c : nat) set (eps : R) ll stopped,
  HMM_new matrix output false alphabet i name = Ok m -> wf_hmm m -> nonneg_hmm m -> pos_times set ->
  bw_loop (round_HMM p set) eps max_it None 0 m = Ok (m', c, ll, stopped) ->
  HMM_new (hmm_mat m') (hmm_out m') false alphabet (IniList (hmm_ini m')) name = Ok m' /\ wf_hmm m' /\
  (forall (TK : Text R), one_line name -> writable_vec (hmm_ini m') -> writable_mat (hmm_mat m') -> writable_mat (hmm_out m') -> loadHMM (hmm_save m') = Ok m').
Proof.
  intros matrix output alphabet i name m m' p mx c set eps ll st E W N HT F.
  destruct (C16_HMM_constructor matrix output alphabet i name) as (A0 & X & _). destruct (X m E) as (Em & Eo & Ea & En & V).
  destruct (proj1 A0 (ex_intro _ m E)) as (I0 & Q & L & O). pose proof (new_ini_sum _ _ _ I0 V) as S0.
  assert (QO : forall r, In r (hmm_out m) -> row_ok (rsum r)).
  { intros r I. apply (In_nth _ _ []) in I. destruct I as [s [Hs <-]]. rewrite Eo in Hs |- *. apply O.
    destruct W as (_ & W2 & _). unfold hmm_n in W2. rewrite Em, Eo in W2. rewrite <- W2. exact Hs. }
  rewrite <- Em in Q.
  apply (bw_loop_inv _ _ (fun x => hmm_ok x /\ (forall r, In r (hmm_mat x) -> row_ok (rsum r)) /\ (forall r, In r (hmm_out x) -> row_ok (rsum r)) /\
    1/2 < rsum (hmm_ini x) < 3/2 /\ hmm_alph x = hmm_alph m /\ hmm_name x = hmm_name m)) in F.
  - destruct F as ([W' N'] & Q' & QO' & S' & Al & Na).
    assert (E' : HMM_new (hmm_mat m') (hmm_out m') false (hmm_alph m') (IniList (hmm_ini m')) (hmm_name m') = Ok m').
    { destruct (C16_HMM_constructor (hmm_mat m') (hmm_out m') (hmm_alph m') (IniList (hmm_ini m')) (hmm_name m')) as (A1 & X1 & _).
      destruct (proj2 A1) as [m2 E2].
      - destruct W' as (_ & W2 & _). unfold hmm_n in W2. split; [exact S'|]. split; [exact Q'|]. split; [lia|]. intros s Hs. apply QO', nth_In. lia.
      - rewrite E2. destruct (X1 m2 E2) as (Z1 & Z2 & Z3 & Z4 & Z5). cbn [ini_vec] in Z5. destruct m', m2. cbn in *. congruence. }
    split; [rewrite <- Ea, <- En, <- Al, <- Na; exact E'|]. split; [exact W'|]. intros TK L1 L2 L3 L4. apply C65_HMM_save_load; auto. rewrite Na, En. exact L1.
  - intros x x' l (O1 & Q1 & Q2 & S1 & A & B) Er. destruct (round_hmm_ok x set p x' l O1 Er HT) as (O2 & _ & A' & B' & S').
    destruct (hrow_rule x set p x' l row_ok O1 Er (row_ok_one 1 eq_refl) Q1 Q2) as [R1 R2].
    split; [exact O2|]. split; [exact R1|]. split; [exact R2|]. split; [lra|]. split; congruence.
  - split; [split; assumption|]. auto.
Qed.
Print Assumptions C133_HMM.

(** GoHMMs: one round (the next one may divide by a standard deviation 0), and the
    whole fit for hypotheses without zeros and varied observations. *)
Lemma go_new_facts (d : nat) (matrix : list (list R)) output i name m : GoHMM_new matrix output i name = Ok m -> wf_gohmm d m ->
  (0 < d)%nat /\ (0 < go_n m)%nat /\ go_name m = name /\ (forall r, In r (go_mat m) -> row_ok (rsum r)) /\ 1/2 < rsum (go_ini m) < 3/2.
Proof.
  intros E W. unfold GoHMM_new in E. destruct output as [|o0 out]; [discriminate|]. destruct (negb (forallb _ _)) eqn:FL; [discriminate|].
  destruct (concat (o0 :: out)) as [|q l] eqn:CC; [discriminate|]. destruct (existsb _ _); [discriminate|].
  unfold base_hmm_init in E. destruct (model_init_spec (length matrix) i) as (I1 & I2 & _). destruct (model_init (length matrix) i) as [ini|]; [|discriminate]. cbn [bind] in E.
  destruct (forallb checkProbabilities matrix) eqn:CP; [|discriminate]. cbn [bind] in E.
  match type of E with (if ?b then _ else _) = _ => destruct b; [discriminate|] end. injection E as <-.
  destruct W as (_ & W2 & W3 & _). cbn [go_out go_mat go_name go_ini] in *. split; [|split; [|split; [reflexivity|split; [apply check_rows, CP|]]]].
  - destruct d as [|d]; [exfalso|lia]. assert (concat (o0 :: out) = []) as X; [|rewrite X in CC; discriminate]. clear - W3.
    induction (o0 :: out) as [|a l' IH]; [reflexivity|]. cbn [concat]. rewrite (proj1 (length_zero_iff_nil a) (W3 a (or_introl eq_refl))). apply IH. intros r I. apply W3; right; exact I.
  - rewrite <- W2. cbn. lia.
  - apply (new_ini_sum (length matrix) i); [apply I1; eauto|apply I2; reflexivity].
Qed.
Lemma go_rebuild (d : nat) (m' : gohmm R) : (0 < d)%nat -> (0 < go_n m')%nat -> wf_gohmm d m' -> (forall r, In r (go_mat m') -> row_ok (rsum r)) -> 1/2 < rsum (go_ini m') < 3/2 ->
  (forall s k, (s < go_n m')%nat -> (k < d)%nat -> 0 <= stddev m' s k) ->
  GoHMM_new (go_mat m') (go_out m') (IniList (go_ini m')) (go_name m') = Ok m'.
Proof.
  intros D1 D2 (W1 & W2 & W3 & W4 & W5) Q' S1 Sd. unfold GoHMM_new.
  assert (LC : length (concat (go_out m')) = (d * go_n m')%nat).
  { rewrite <- W2. clear - W3. induction (go_out m') as [|a l' IH]; [cbn; lia|]. cbn [concat length]. rewrite app_length, (W3 a (or_introl eq_refl)), IH by (intros r I; apply W3; right; exact I). lia. }
  destruct (go_out m') as [|o0 out] eqn:EO; [cbn in W2; lia|].
  assert (Lo : length o0 = d) by (apply W3; left; reflexivity).
  replace (forallb _ _) with true.
  2:{ symmetry. apply forallb_forall. intros o I. apply Nat.eqb_eq. rewrite (W3 o I). congruence. }
  cbn [negb]. destruct (concat (o0 :: out)) as [|q l] eqn:CC; [cbn in LC; nia|]. rewrite <- CC in *. clear q l CC.
  replace (existsb _ _) with false.
  2:{ symmetry. destruct (existsb _ _) eqn:X; [|reflexivity]. exfalso. apply existsb_exists in X as (q & I & X). apply Rltb_true in X.
      rewrite in_concat in I. destruct I as (r & Ir & Iq). pose proof (W3 r Ir) as Lr. apply (In_nth _ _ []) in Ir as (s & Hs & <-). apply (In_nth _ _ (0, 0)) in Iq as (k & Hk & <-).
      rewrite W2 in Hs. rewrite Lr in Hk. specialize (Sd s k Hs Hk). unfold stddev in Sd. rewrite EO in Sd. revert X. nR. apply Rle_not_lt, Sd. }
  unfold base_hmm_init. destruct (model_init_spec (length (go_mat m')) (IniList (go_ini m'))) as (M1 & M2 & _).
  destruct (proj2 M1) as [ini Ei]; [exact S1|]. rewrite Ei. pose proof (M2 ini Ei) as V. cbn [ini_vec] in V. subst ini. cbn [bind].
  apply check_rows in Q'. rewrite Q'. cbn [bind]. rewrite LC, Lo, (proj1 W1). rewrite Nat.mul_comm, Nat.eqb_refl. cbn [negb].
  destruct m'. cbn in *. congruence.
Qed.
Theorem C133_GoHMM_round_partial : forall (d : nat) (matrix : list (list R)) output i name (m m' : gohmm R) (p : nat) set (ll : R),
  GoHMM_new matrix output i name = Ok m -> wf_gohmm d m -> pos_sigma d m -> nonneg_mat (go_mat m) -> obs_dim d set -> pos_times set ->
  round_GoHMM p d set m = Ok (m', ll) ->
  GoHMM_new (go_mat m') (go_out m') (IniList (go_ini m')) name = Ok m' /\ wf_gohmm d m'.
Proof.
  intros d matrix output i name m m' p set ll E W Sg N Hd HT F. destruct (go_new_facts d matrix output i name m E W) as (D1 & D2 & En & Q & _).
  destruct (round_go_ok d m set p m' ll (conj W N) Sg Hd F HT) as ([W' N'] & A & B & S1).
  pose proof (grow_rule d m set p m' ll row_ok (conj W N) Sg Hd F (row_ok_one 1 eq_refl) Q) as Q'.
  destruct (C73_gohmm_round_is_ratio_of_expectations d m m' p set ll W Sg N Hd F) as (_ & _ & _ & _ & _ & Sd & _).
  split; [|exact W']. rewrite <- En, <- B. apply (go_rebuild d); auto; [lia|lra|]. intros s k Hs Hk. rewrite Sd by (auto; lia). apply sqrt_pos.
Qed.
Print Assumptions C133_GoHMM_round_partial.
Theorem C133_GoHMM : forall (d : nat) (matrix : list (list R)) output i name (m m' : gohmm R) (p max_it c : nat) set (eps : R) ll stopped,
  GoHMM_new matrix output i name = Ok m -> wf_gohmm d m -> go_full d m -> obs_dim d set -> pos_times set -> varied d set ->
  bw_loop (round_GoHMM p d set) eps max_it None 0 m = Ok (m', c, ll, stopped) ->
  GoHMM_new (go_mat m') (go_out m') (IniList (go_ini m')) name = Ok m' /\ wf_gohmm d m' /\ go_full d m' /\
  (forall (TK : Text R), one_line name -> writable_vec (go_ini m') -> writable_mat (go_mat m') ->
     (forall l q, In l (go_out m') -> In q l -> writable (fst q) /\ writable (snd q)) -> loadGoHMM (go_save m') = Ok m').
Proof.
  intros d matrix output i name m m' p mx c set eps ll st E W Fu Hd HT V F. destruct (go_new_facts d matrix output i name m E W) as (D1 & D2 & En & Q & S0).
  apply (bw_loop_inv _ _ (fun x => wf_gohmm d x /\ go_full d x /\ go_n x = go_n m /\ go_name x = go_name m /\ (forall r, In r (go_mat x) -> row_ok (rsum r)) /\ 1/2 < rsum (go_ini x) < 3/2)) in F.
  - destruct F as (W' & Fu' & A & B & Q' & S1).
    assert (E' : GoHMM_new (go_mat m') (go_out m') (IniList (go_ini m')) (go_name m') = Ok m').
    { apply (go_rebuild d); auto; [lia|]. intros s k Hs Hk. left. apply Fu'; assumption. }
    split; [rewrite <- En, <- B; exact E'|]. split; [exact W'|]. split; [exact Fu'|]. intros TK L1 L2 L3 L4. apply C65_GoHMM_save_load; auto. rewrite B, En. exact L1.
  - intros x x' l (W1 & F1 & A1 & B1 & Q1 & S1) Er. pose proof (full_nonneg d x W1 F1) as N1.
    assert (Sg : pos_sigma d x) by apply F1.
    destruct (round_go_ok d x set p x' l (conj W1 N1) Sg Hd Er HT) as ([W2 N2] & A2 & B2 & S2).
    split; [exact W2|]. split; [apply (round_full d x set p x' l); assumption|]. split; [congruence|]. split; [congruence|]. split; [|lra].
    apply (grow_rule d x set p x' l row_ok (conj W1 N1) Sg Hd Er (row_ok_one 1 eq_refl) Q1).
  - auto 10.
Qed.
Print Assumptions C133_GoHMM.

(** ** C134: what a learned model can do was possible in the first hypothesis *)

Definition below (n : nat) (A A' : nat -> nat -> R) : Prop := forall i j, (i < n)%nat -> (j < n)%nat -> 0 <= A i j /\ 0 <= A' i j /\ (0 < A' i j -> 0 < A i j).
Definition belowv (n : nat) (b b' : nat -> R) : Prop := forall i, (i < n)%nat -> 0 <= b i /\ 0 <= b' i /\ (0 < b' i -> 0 < b i).
Lemma pos_prod x y : 0 <= x -> 0 <= y -> 0 < x * y -> 0 < x /\ 0 < y.
Proof. intros X Y P. split; [destruct X as [X|<-]; [exact X|lra]|destruct Y as [Y|<-]; [exact Y|lra]]. Qed.
Lemma path_below n As As' Bs Bs' x : (forall i, In i x -> (i < n)%nat) -> Forall2 (below n) As As' -> Forall2 (belowv n) Bs Bs' ->
  0 < path_weight As' Bs' x -> 0 < path_weight As Bs x.
Proof.
  intros R FA FB. revert As As' FA x R; induction FB as [|b b' Bs Bs' Hb FB IH]; intros As As' FA x R.
  { destruct As'; cbn; lra. }
  destruct x as [|s x]; [destruct As'; cbn; lra|]. destruct (Hb s (R s (or_introl eq_refl))) as (B1 & B2 & B3).
  destruct FA as [|A A' As As' HA FA]; cbn [path_weight].
  - destruct FB as [|? ? ? ? ? FB].
    + destruct x; intros P; [|lra]. specialize (B3 ltac:(lra)). lra.
    + lra.
  - destruct FB as [|b1 b1' Bs Bs' Hb1 FB]; [lra|]. destruct x as [|s' x]; [lra|].
    destruct (HA s s' (R s (or_introl eq_refl)) (R s' (or_intror (or_introl eq_refl)))) as (A1 & A2 & A3).
    assert (FB' : Forall2 (belowv n) (b1 :: Bs) (b1' :: Bs')) by (constructor; assumption).
    assert (W' : 0 <= path_weight As' (b1' :: Bs') (s' :: x)).
    { apply (path_weight_nonneg n); [intros i I; apply R; right; exact I| |].
      - intros A0 i j I Hi Hj. clear - FA I Hi Hj. induction FA as [|? ? ? ? H ? IHF]; [destruct I|]. destruct I as [<-|I]; [apply H; assumption|apply IHF, I].
      - intros B0 i I Hi. clear - FB' I Hi. induction FB' as [|? ? ? ? H ? IHF]; [destruct I|]. destruct I as [<-|I]; [apply H; assumption|apply IHF, I]. }
    intros P. destruct (pos_prod _ _ B2 (Rmult_le_pos _ _ A2 W') P) as [P1 P2]. destruct (pos_prod _ _ A2 W' P2) as [P3 P4].
    apply Rmult_lt_0_compat; [auto|]. apply Rmult_lt_0_compat; [auto|]. apply (IH As As' FA (s' :: x)); [intros i I; apply R; right; exact I|exact P4].
Qed.
Lemma Forall2_len {A B} (P : A -> B -> Prop) l l' : Forall2 P l l' -> length l = length l'.
Proof. induction 1; cbn; congruence. Qed.
Lemma trace_below n pi pi' As As' Bs Bs' : belowv n pi pi' -> Forall2 (below n) As As' -> Forall2 (belowv n) Bs Bs' ->
  0 < trace_prob n pi' As' Bs' -> 0 < trace_prob n pi As Bs.
Proof.
  intros HP FA FB P. unfold trace_prob in P. apply sumL_pos_exists in P as (x & I & P). pose proof (paths_range _ _ _ I) as R. pose proof (paths_length _ _ _ I) as L.
  assert (LB : length Bs = length Bs') by (apply (Forall2_len _ _ _ FB)).
  assert (NB : Bs <> []) by (destruct FB; [destruct As', x; cbn in P; lra|discriminate]).
  assert (Hh : (hd O x < n)%nat). { destruct x as [|s x]; [destruct FB; [congruence|]; cbn in L; lia|]. apply R; left; reflexivity. }
  destruct (HP _ Hh) as (P1 & P2 & P3).
  assert (NA' : forall A i j, In A As' -> (i < n)%nat -> (j < n)%nat -> 0 <= A i j).
  { intros A0 i j J Hi Hj. clear - FA J Hi Hj. induction FA as [|? ? ? ? H ? IHF]; [destruct J|]. destruct J as [<-|J]; [apply H; assumption|apply IHF, J]. }
  assert (NB' : forall B i, In B Bs' -> (i < n)%nat -> 0 <= B i).
  { intros B0 i J Hi. clear - FB J Hi. induction FB as [|? ? ? ? H ? IHF]; [destruct J|]. destruct J as [<-|J]; [apply H; assumption|apply IHF, J]. }
  assert (NA1 : forall A i j, In A As -> (i < n)%nat -> (j < n)%nat -> 0 <= A i j).
  { intros A0 i j J Hi Hj. clear - FA J Hi Hj. induction FA as [|? ? ? ? H ? IHF]; [destruct J|]. destruct J as [<-|J]; [apply H; assumption|apply IHF, J]. }
  assert (NB1 : forall B i, In B Bs -> (i < n)%nat -> 0 <= B i).
  { intros B0 i J Hi. clear - FB J Hi. induction FB as [|? ? ? ? H ? IHF]; [destruct J|]. destruct J as [<-|J]; [apply H; assumption|apply IHF, J]. }
  destruct (pos_prod _ _ P2 (path_weight_nonneg n _ _ _ R NA' NB') P) as [Q1 Q2].
  apply (trace_prob_pos n pi As Bs x); auto; [congruence|intros i Hi; apply (HP i Hi)|]. apply (path_below n As As' Bs Bs' x R FA FB Q2).
Qed.

Lemma Forall2_repeat {A B} (P : A -> B -> Prop) a b n : P a b -> Forall2 P (repeat a n) (repeat b n).
Proof. intros H. induction n; cbn; constructor; assumption. Qed.
Lemma Forall2_map2 {A B C} (P : B -> C -> Prop) (f : A -> B) (g : A -> C) l : (forall a, In a l -> P (f a) (g a)) -> Forall2 P (map f l) (map g l).
Proof. induction l; intros H; cbn; constructor; [apply H; left; reflexivity|apply IHl; intros a' I; apply H; right; exact I]. Qed.
Lemma belowv_refl n b : (forall i, (i < n)%nat -> 0 <= b i) -> belowv n b b.
Proof. intros H i Hi. auto. Qed.
Lemma below_zero n A A' : (forall i j, (i < n)%nat -> (j < n)%nat -> 0 <= A i j /\ 0 <= A' i j) -> (forall i j, (i < n)%nat -> (j < n)%nat -> A i j = 0 -> A' i j = 0) -> below n A A'.
Proof.
  intros H Z i j Hi Hj. destruct (H i j Hi Hj) as [P Q]. split; [exact P|]. split; [exact Q|]. intros P'. destruct P as [P|P]; [exact P|].
  symmetry in P. apply (Z i j Hi Hj) in P. lra.
Qed.
Lemma is_label_nonneg labels o s : 0 <= is_label labels o s.
Proof. unfold is_label. destruct (String.eqb _ _); lra. Qed.
Lemma stochastic_dist mat : stochastic mat -> all_dist mat.
Proof. intros [N S] r I. split; [apply N, I|apply S, I]. Qed.

Theorem C134_MC : forall (m m' : mc R) (p max_it c : nat) set (eps : R) ll stopped,
  wf_mc m -> stochastic (mc_mat m) -> is_dist (mc_ini m) -> pos_times set ->
  bw_loop (round_MC p set) eps max_it None 0 m = Ok (m', c, ll, stopped) ->
  (forall tr, 0 < mc_trace_prob m' tr -> 0 < mc_trace_prob m tr) /\
  (forall tr t, In (tr, t) set -> tr <> [] -> 0 < mc_trace_prob m tr -> 0 < mc_trace_prob m' tr) /\
  (forall (steps : nat) draws, (forall k, unit_draw (draws k)) ->
     exists tr, mc_run m' (Z.of_nat steps) (-1) draws = Ok tr /\ length tr = S steps /\ 0 < mc_trace_prob m' tr /\ 0 < mc_trace_prob m tr).
Proof.
  intros m m' p mx c set eps ll st W St DI HT F.
  destruct (C34_mc_learning_stochastic m m' p mx c set eps ll st W St HT F) as (W' & St' & A & B & C & D).
  assert (P1 : forall tr, 0 < mc_trace_prob m' tr -> 0 < mc_trace_prob m tr).
  { intros tr. unfold mc_trace_prob. rewrite A, B, C. apply trace_below.
    - apply belowv_refl. intros i Hi. destruct W as (_ & _ & Li & Ni). apply Ni. unfold vecR. apply nth_In. lia.
    - apply Forall2_repeat. apply below_zero; [intros i j _ _; split; apply matR_nonneg; [apply St|apply St']|].
      intros i j Hi Hj. apply (C37_mc_zero_stays_zero m m' p mx c i j set eps ll st); auto. apply St.
    - apply Forall2_map2. intros o _. apply belowv_refl. intros i _. apply is_label_nonneg. }
  split; [exact P1|]. split.
  - intros tr t I NE P0.
    apply (bw_loop_inv _ _ (fun x => (mc_ok x /\ forall r, In r (mc_mat x) -> rsum r = 1) /\ 0 < mc_trace_prob_move x tr)) in F.
    + rewrite <- move_trace; [apply F|exact W'|apply St'|exact NE].
    + intros x x' l [[O1 S1] P] Er. destruct (round_mc_ok x set p x' l O1 Er HT) as (O2 & _). split; [split; [exact O2|]|].
      * apply (row_rule x set p x' l (fun v => v = 1) O1 Er eq_refl S1).
      * apply (round_mc_mono x set p x' l O1) with (tr := tr) (t := t); auto. intros r Ir. rewrite (S1 r Ir). lra.
    + split; [split; [split; [exact W|apply St]|apply St]|]. rewrite move_trace; [exact P0|exact W|apply St|exact NE].
  - intros steps draws U. assert (DI' : is_dist (mc_ini m')) by (rewrite C; exact DI).
    destruct (C22_mc_run m' steps draws W' (stochastic_dist _ St') DI' U) as (s & x & _ & _ & _ & E).
    destruct (C22_mc_run_possible m' steps draws _ W' (stochastic_dist _ St') DI' U E) as [L P]. eauto 6.
Qed.
Print Assumptions C134_MC.

Lemma Sum_below n (f g : nat -> R) : (forall i, (i < n)%nat -> 0 <= f i /\ 0 <= g i /\ (0 < g i -> 0 < f i)) -> 0 <= Sum n f /\ 0 <= Sum n g /\ (0 < Sum n g -> 0 < Sum n f).
Proof.
  intros H. split; [apply Sum_nonneg; intros i Hi; apply (H i Hi)|]. split; [apply Sum_nonneg; intros i Hi; apply (H i Hi)|].
  intros P. unfold Sum in *. apply sumL_pos_exists in P as (i & I & P). apply (sumL_pos _ _ i); [|exact I|].
  - intros b J. apply in_seq in J. apply H. lia.
  - apply in_seq in I. apply H; [lia|exact P].
Qed.
Lemma zero_below x y : 0 <= x -> 0 <= y -> (x = 0 -> y = 0) -> 0 <= x /\ 0 <= y /\ (0 < y -> 0 < x).
Proof. intros X Y Z. split; [exact X|]. split; [exact Y|]. intros P. destruct X as [X|X]; [exact X|]. symmetry in X. apply Z in X. lra. Qed.

Theorem C134_HMM : forall (m m' : hmm R) (p max_it c : nat) set (eps : R) ll stopped,
  wf_hmm m -> stochastic (hmm_mat m) -> stochastic (hmm_out m) -> rsum (hmm_ini m) = 1 -> pos_times set ->
  bw_loop (round_HMM p set) eps max_it None 0 m = Ok (m', c, ll, stopped) ->
  (forall tr, 0 < hmm_trace_prob m' tr -> 0 < hmm_trace_prob m tr) /\
  (forall tr t, In (tr, t) set -> tr <> [] -> 0 < hmm_trace_prob m tr -> 0 < hmm_trace_prob m' tr) /\
  (forall (steps : nat) draws, (forall k, unit_draw (draws k)) -> (0 < steps)%nat ->
     exists tr, hmm_run m' (Z.of_nat steps) (-1) draws = Ok tr /\ length tr = steps /\ 0 < hmm_trace_prob m' tr /\ 0 < hmm_trace_prob m tr).
Proof.
  intros m m' p mx c set eps ll st W St So Si HT F.
  destruct (C35_hmm_learning_stochastic m m' p mx c set eps ll st W St So Si HT F) as (W' & St' & So' & Si' & A & B & C).
  assert (N : nonneg_hmm m) by (split; [apply St|apply So]).
  destruct (C37_hmm_zero_stays_zero m m' p mx c set eps ll st W N HT F) as (Z1 & Z2 & Z3).
  assert (NI : forall x : hmm R, wf_hmm x -> forall i, (i < hmm_n x)%nat -> 0 <= vecR (hmm_ini x) i).
  { intros x Wx i Hi. destruct Wx as (_ & _ & _ & _ & Li & Ni). apply Ni. unfold vecR. apply nth_In. lia. }
  assert (P1 : forall tr, 0 < hmm_trace_prob m' tr -> 0 < hmm_trace_prob m tr).
  { intros tr. unfold hmm_trace_prob. rewrite A. apply trace_below.
    - intros i Hi. apply zero_below; [apply (NI m W i Hi)|apply (NI m' W'); rewrite A; exact Hi|apply Z3, Hi].
    - apply Forall2_repeat. intros i j Hi Hj. apply zero_below; [apply matR_nonneg, St|apply matR_nonneg, St'|apply Z1; assumption].
    - apply Forall2_map2. intros o _ i Hi. unfold emit. rewrite B. apply Sum_below. intros j Hj. destruct (String.eqb _ _); [|lra].
      apply zero_below; [apply matR_nonneg, So|apply matR_nonneg, So'|apply Z2; assumption]. }
  split; [exact P1|]. split.
  - intros tr t I NE P0.
    apply (bw_loop_inv _ _ (fun x => (wf_hmm x /\ hmm_sub x) /\ 0 < hmm_trace_prob_move x tr)) in F.
    + rewrite <- hmm_move_trace; [apply F|exact W'|apply St'|exact NE].
    + intros x x' l [[O1 S1] P] Er. split; [apply (hmm_round_sub x set p x' l O1 S1 HT Er)|].
      destruct (C39_hmm_round_likelihood x x' p set l O1 S1 HT Er) as (_ & _ & X). apply (X tr t I). exact P.
    + split; [split; [exact W|]|rewrite hmm_move_trace; [exact P0|exact W|apply St|exact NE]].
      split; [split; [apply St|intros r Ir; rewrite (proj2 St r Ir); lra]|]. split; [split; [apply So|intros r Ir; rewrite (proj2 So r Ir); lra]|lra].
  - intros steps draws U Hst. assert (DI' : is_dist (hmm_ini m')). { split; [apply W'|exact Si']. }
    destruct (C23_hmm_run m' steps draws W' (stochastic_dist _ St') (stochastic_dist _ So') DI' U) as (s & x & _ & _ & _ & E).
    destruct (C23_hmm_run_possible m' steps draws _ W' (stochastic_dist _ St') (stochastic_dist _ So') DI' U E) as [L P].
    eexists. split; [exact E|]. split; [exact L|].
    rewrite hmm_move_trace in P; [|exact W'|apply St'|intros X; rewrite X in L; cbn in L; lia]. split; [exact P|apply P1, P].
Qed.
Print Assumptions C134_HMM.

Theorem C134_MDP : forall (m m' : mdp R) (p max_it c : nat) set (eps : R) ll stopped,
  wf_mdp m -> nonneg_mdp m -> mdp_rows (fun x => x = 0 \/ x = 1) m -> is_dist (mdp_ini m) -> pos_times set ->
  bw_loop (round_MDP p set) eps max_it None 0 m = Ok (m', c, ll, stopped) ->
  (forall tr, 0 < mdp_trace_prob m' tr -> 0 < mdp_trace_prob m tr) /\
  (alternating_set set -> forall tr t, In (tr, t) set -> 0 < mdp_trace_prob m tr -> 0 < mdp_trace_prob m' tr) /\
  (forall s, getActions m' s = getActions m s) /\
  (forall S (sch : scheduler R S) st (steps : nat) draws tr, (forall r, In r draws -> unit_draw r) ->
     mdp_run m' sch st (Z.of_nat steps) draws = Some (Ok tr) -> 0 < mdp_trace_prob m' tr /\ 0 < mdp_trace_prob m tr).
Proof.
  intros m m' p mx c set eps ll st W N Q DI HT F.
  destruct (C36_mdp_learning_stochastic m m' p mx c set eps ll st W N Q HT F) as (W' & N' & (A & B & C & I & D) & Q' & RT).
  assert (P1 : forall tr, 0 < mdp_trace_prob m' tr -> 0 < mdp_trace_prob m tr).
  { intros tr. unfold mdp_trace_prob. rewrite A, B, I. apply trace_below.
    - apply belowv_refl. intros i Hi. destruct W as (_ & _ & _ & Li & Ni). apply Ni. unfold vecR. apply nth_In. lia.
    - apply Forall2_map2. intros a _ i j Hi Hj. unfold act_mat. rewrite C. apply Sum_below. intros k Hk. destruct (String.eqb _ _); [|lra].
      change (0 <= prob_of m i k j /\ 0 <= prob_of m' i k j /\ (0 < prob_of m' i k j -> 0 < prob_of m i k j)).
      apply zero_below; [apply tget_nonneg, N|apply tget_nonneg, N'|].
      apply (C37_mdp_zero_stays_zero m m' p mx c set eps ll st W N HT F); assumption.
    - apply Forall2_map2. intros o _. apply belowv_refl. intros i _. apply is_label_nonneg. }
  split; [exact P1|]. split; [|split].
  - intros AS tr t J P0.
    apply (bw_loop_inv _ _ (fun x => (mdp_ok x /\ mdp_rows (fun v => v <= 1) x) /\ 0 < mdp_trace_prob x tr)) in F; [apply F| |].
    + intros x x' l [[O1 S1] P] Er. split; [apply (mdp_round_sub x set p x' l O1 S1 HT Er)|].
      destruct (C40_mdp_round_likelihood x x' p set l (proj1 O1) (proj2 O1) S1 HT AS Er) as (_ & _ & X). apply (X tr t J). exact P.
    + split; [split; [split; assumption|]|exact P0]. intros s j Hs Hj. destruct (Q s j Hs Hj) as [-> | ->]; lra.
  - intros s. unfold getActions. rewrite C.
    assert (X : forall k, (k < length (mdp_act m))%nat -> nsum (nth k (nth s (mdp_mat m') []) []) = nsum (nth k (nth s (mdp_mat m) []) [])).
    { intros k Hk. toR. destruct (Nat.lt_ge_cases s (mdp_n m)) as [Hs|Hs]; [apply (RT s k Hs Hk)|].
      rewrite (nth_overflow (mdp_mat m) []), (nth_overflow (mdp_mat m') []); [destruct k; reflexivity|unfold mdp_n in A, Hs; lia|unfold mdp_n in Hs; exact Hs]. }
    rewrite !flat_map_concat_map. f_equal. apply map_ext_in. intros k J. apply in_seq in J. rewrite X by lia. reflexivity.
  - intros S sch st' steps draws tr U E. assert (P : 0 < mdp_trace_prob m' tr); [|split; [exact P|apply P1, P]].
    apply (C24_mdp_run_possible S m' sch st' steps draws tr W'); auto; [|rewrite I; exact DI].
    intros ra r J1 J2. split; [apply (N' ra J1 r J2)|]. pose proof (proj1 (proj1 W' ra J1)) as La. apply (In_nth _ _ []) in J1 as (s & Hs & <-). apply (In_nth _ _ []) in J2 as (k & Hk & <-).
    apply (Q' s k); [exact Hs|rewrite <- La; exact Hk].
Qed.
Print Assumptions C134_MDP.

Theorem C134_CTMC_timed : forall (m m' : ctmc R) fixed (p max_it c : nat) set (eps : R) ll stopped,
  wf_ctmc m -> nonneg_mat (ct_mat m) -> timed_set set -> pos_times set ->
  bw_loop (round_CTMC_timed p fixed set) eps max_it None 0 m = Ok (m', c, ll, stopped) ->
  (forall labels times, 0 < ct_density m' (labels, times) -> 0 < ct_density m (labels, times)) /\
  (forall tr t, In (tr, t) set -> 0 < ct_density m tr -> 0 < ct_density m' tr).
Proof.
  intros m m' fixed p mx c set eps ll st W N HS HT F.
  destruct (C41_ctmc_timed_fit_likelihood m m' fixed p mx c set eps ll st W N HS HT F) as (W' & N' & (A & B & C & D) & _).
  split.
  - intros labels times. unfold ct_density. cbn [fst snd]. rewrite A, B, C. apply trace_below.
    + apply belowv_refl. intros i Hi. destruct W as (_ & _ & Li & Ni). apply Ni. unfold vecR. apply nth_In. lia.
    + apply Forall2_map2. intros t _ i j Hi Hj. unfold jump_density. apply zero_below.
      * apply Rmult_le_pos; [apply matR_nonneg, N|left; apply exp_pos].
      * apply Rmult_le_pos; [apply matR_nonneg, N'|left; apply exp_pos].
      * intros Z. change (rate m' i j * exp (- (exit_rate m' i * t)) = 0). rewrite (C37_ctmc_timed_zero_stays_zero m m' fixed p mx c set eps ll st W N HS HT F i j Hi Hj); [lra|].
        apply Rmult_integral in Z as [Z|Z]; [exact Z|]. pose proof (exp_pos (- (exit_rate m i * t))). lra.
    + apply Forall2_map2. intros o _. apply belowv_refl. intros i _. apply is_label_nonneg.
  - intros tr t I P0. apply (bw_loop_inv _ _ (fun x => ct_ok x /\ 0 < ct_density x tr)) in F; [apply F| |split; [split; assumption|exact P0]].
    intros x x' l [O1 P] Er. split; [apply (round_ct_ok x fixed set p x' l O1 HS HT Er)|].
    destruct (C41_ctmc_timed_round_likelihood x x' fixed p set l (proj1 O1) (proj2 O1) HS HT Er) as (_ & _ & X). apply (X tr t I). exact P.
Qed.
Print Assumptions C134_CTMC_timed.

(** ** Instances: one round from each kind of model *)
Lemma one_round {M} (round : M -> res (M * R)) eps m m' ll : round m = Ok (m', ll) -> bw_loop round eps 1 None 0 m = Ok (m', 1%nat, Some ll, false).
Proof. intros E. cbn. rewrite E. reflexivity. Qed.
Definition use_mdp : mdp R := mkMDP [[[1/2; 1/2]; [0; 1]]; [[1; 0]; [0; 0]]] ["init"; "y"]%string ["a"; "b"]%string [1; 0] "ex"%string.
Definition use_dset : list (list string * Z) := [(["init"; "a"; "y"]%string, 2%Z); (["init"; "b"; "y"; "a"; "init"]%string, 1%Z)].
Definition use_ct : ctmc R := mkCTMC [[0; 1]; [2; 0]] ["init"; "b"]%string [1; 0] "ex"%string.
Definition use_cset : list ((list string * list R) * Z) := [((["init"; "b"]%string, [1]), 1%Z)].
Example C133_C134_instance :
  (MC_new (mc_mat ex_mc) (mc_lab ex_mc) "ex" = Ok ex_mc /\ square 3 (mc_mat ex_mc) /\ stochastic (mc_mat ex_mc) /\ is_dist (mc_ini ex_mc) /\
   pos_times (weighted ex_set) /\ exists m' c ll b, bw_loop (round_MC 1 (weighted ex_set)) 1 1 None 0 ex_mc = Ok (m', c, ll, b)) /\
  (HMM_new (hmm_mat ex_hmm) (hmm_out ex_hmm) false (hmm_alph ex_hmm) (IniInt 0) "ex" = Ok ex_hmm /\
   exists m' c ll b, bw_loop (round_HMM 1 (weighted ex_hset)) 1 1 None 0 ex_hmm = Ok (m', c, ll, b)) /\
  (MDP_new (mdp_mat use_mdp) (mdp_lab use_mdp) (mdp_act use_mdp) "ex" = Ok use_mdp /\ wf_mdp use_mdp /\ nonneg_mdp use_mdp /\
   mdp_rows (fun x => x = 0 \/ x = 1) use_mdp /\ is_dist (mdp_ini use_mdp) /\ pos_times use_dset /\ alternating_set use_dset /\
   exists m' c ll b, bw_loop (round_MDP 1 use_dset) 1 1 None 0 use_mdp = Ok (m', c, ll, b)) /\
  (CTMC_new (ct_mat use_ct) (ct_lab use_ct) "ex" = Ok use_ct /\ square 2 (ct_mat use_ct) /\ nonneg_mat (ct_mat use_ct) /\ timed_set use_cset /\ pos_times use_cset /\
   exists m' c ll b, bw_loop (round_CTMC_timed 1 [] use_cset) 1 1 None 0 use_ct = Ok (m', c, ll, b)).
Proof.
  split; [|split; [|split]].
  - destruct C34_C37_C38_C42_instance as (W & St & HT & _ & P & (m' & ll & E) & _).
    assert (E0 : exists m, MC_new (mc_mat ex_mc) (mc_lab ex_mc) "ex" = Ok m).
    { apply C16_MC_constructor. split; [right; right; left; reflexivity|]. split; [reflexivity|]. intros r I. apply row_ok_one, St, I. }
    split; [|split; [apply W|split; [exact St|split; [split; [apply W|cbn; lra]|split; [exact HT|]]]]].
    + destruct E0 as [m E0]. rewrite E0. f_equal. destruct (C16_MC_constructor (mc_mat ex_mc) (mc_lab ex_mc) "ex") as (_ & B & _).
      destruct (B m E0) as (E1 & E2 & E3 & E4 & _ & E5). destruct m as [mat lab ini name]. cbn in E1, E2, E3, E4. cbn [mc_ini] in E5. subst. unfold ex_mc. f_equal.
      apply (nth_ext _ _ 0 0); [exact E4|]. intros n Hn. rewrite E4 in Hn. change (nth n ini 0) with (vecR ini n). rewrite E5 by exact Hn.
      destruct n as [|[|[|n]]]; cbn in *; [reflexivity|reflexivity|unfold label_count; cbn; lra|lia].
    + do 4 eexists. apply one_round, E.
  - destruct C35_C37_C39_C42_instance as (W & St & So & Si & _ & _ & _ & (m' & ll & E) & _). split.
    + destruct (C16_HMM_constructor (hmm_mat ex_hmm) (hmm_out ex_hmm) (hmm_alph ex_hmm) (IniInt 0) "ex") as (A & B & _).
      destruct (proj2 A) as [m E0].
      * split; [cbn; lia|]. split; [intros r I; apply row_ok_one, St, I|]. split; [cbn; lia|]. intros s Hs. apply row_ok_one, So, nth_In. exact Hs.
      * rewrite E0. f_equal. destruct (B m E0) as (E1 & E2 & E3 & E4 & E5 & E6). destruct m as [mat out alph ini name]. cbn in E1, E2, E3, E4. cbn [MModels.hmm_ini] in E5, E6. subst. unfold ex_hmm. f_equal.
        apply (nth_ext _ _ 0 0); [exact E5|]. intros n Hn. rewrite E5 in Hn. change (nth n ini 0) with (vecR ini n). rewrite E6 by exact Hn.
        destruct n as [|[|n]]; cbn in *; [reflexivity|reflexivity|lia].
    + do 4 eexists. apply one_round, E.
  - assert (W : wf_mdp use_mdp).
    { unfold wf_mdp, mdp_n; cbn. repeat split; auto.
      - destruct H as [<-|[<-|[]]]; reflexivity.
      - destruct H as [<-|[<-|[]]]; intros r [<-|[<-|[]]]; reflexivity.
      - constructor; [intros [H|[]]; discriminate|]. constructor; [intros []|constructor].
      - intros v [<-|[<-|[]]]; lra. }
    assert (N : nonneg_mdp use_mdp) by (intros ra [<-|[<-|[]]] r [<-|[<-|[]]] v [<-|[<-|[]]]; lra).
    assert (S0 : mdp_rows (fun x => x = 0 \/ x = 1) use_mdp).
    { intros s j Hs Hj. unfold mdp_n in Hs. cbn in Hs, Hj. destruct s as [|[|s]]; [| |lia]; (destruct j as [|[|j]]; [| |lia]); unfold row_total; cbn; lra. }
    assert (P : forall tr t, In (tr, t) use_dset -> 0 < mdp_trace_prob use_mdp tr).
    { intros tr t [E|[E|[]]]; inversion E; subst; unfold mdp_trace_prob, trace_prob, sumL, act_mat, is_label, Sum, sumL; cbn; lra. }
    assert (A : alternating_set use_dset) by (intros tr t [E|[E|[]]]; inversion E; subst; reflexivity).
    assert (E0 : exists m, MDP_new (mdp_mat use_mdp) (mdp_lab use_mdp) (mdp_act use_mdp) "ex" = Ok m).
    { apply C16_MDP_constructor. split; [left; reflexivity|]. split; [reflexivity|].
      intros r [<-|[<-|[]]] [|[|a]] La; cbn in La; try lia; (eexists; split; [reflexivity|]); [apply row_ok_one|apply row_ok_one|apply row_ok_one|apply row_ok_zero]; cbn; lra. }
    split; [|split; [exact W|split; [exact N|split; [exact S0|split; [split; [apply W|cbn; lra]|split; [intros st [<-|[<-|[]]]; cbn; lia|split; [exact A|]]]]]]].
    + destruct E0 as [m E0]. rewrite E0. f_equal. destruct (C16_MDP_constructor (mdp_mat use_mdp) (mdp_lab use_mdp) (mdp_act use_mdp) "ex") as (_ & B & _).
      destruct (B m E0) as (E1 & E2 & E2' & E3 & E4 & _ & E5). destruct m as [mat lab act ini name]. cbn in E1, E2, E2', E3, E4. cbn [mdp_ini] in E5. subst. unfold use_mdp. f_equal.
      apply (nth_ext _ _ 0 0); [exact E4|]. intros n Hn. rewrite E4 in Hn. change (nth n ini 0) with (vecR ini n). rewrite E5 by exact Hn.
      destruct n as [|[|n]]; cbn in *; [unfold label_count; cbn; lra|reflexivity|lia].
    + destruct (round_mdp_succeeds use_mdp use_dset 1) as (m' & ll & E); [split; assumption|exact A| |right; exact P|].
      * exists ["init"; "a"; "y"]%string, 2%Z. split; [left; reflexivity|]. apply (P _ 2%Z). left; reflexivity.
      * do 4 eexists. apply one_round, E.
  - assert (W : wf_ctmc use_ct).
    { unfold wf_ctmc, square, ct_n; cbn. repeat split; auto; [intros r [<-|[<-|[]]]; reflexivity|intros v [<-|[<-|[]]]; lra]. }
    assert (N : nonneg_mat (ct_mat use_ct)) by (intros r [<-|[<-|[]]] v [<-|[<-|[]]]; lra).
    assert (A : timed_set use_cset). { intros x t [E|[]]. injection E as <- <-. split; [reflexivity|]. intros d [<-|[]]. lra. }
    assert (P : forall tr t, In (tr, t) use_cset -> 0 < ct_density use_ct tr).
    { intros tr t [E|[]]. injection E as <- <-. unfold ct_density, trace_prob, sumL, jump_density, is_label. cbn. unfold matR, vecR. cbn.
      repeat match goal with |- context [exp ?x] => let H := fresh in pose proof (exp_pos x) as H; let e := fresh in set (e := exp x) in * end. lra. }
    assert (E0 : exists m, CTMC_new (ct_mat use_ct) (ct_lab use_ct) "ex" = Ok m) by (apply C16_CTMC_constructor; split; [left; reflexivity|reflexivity]).
    split; [|split; [apply W|split; [exact N|split; [exact A|split; [intros st [<-|[]]; cbn; lia|]]]]].
    + destruct E0 as [m E0]. rewrite E0. f_equal. destruct (C16_CTMC_constructor (ct_mat use_ct) (ct_lab use_ct) "ex") as (_ & B & _).
      destruct (B m E0) as (E1 & E2 & E3 & E4 & _ & E5). destruct m as [mat lab ini name]. cbn in E1, E2, E3, E4. cbn [ct_ini] in E5. subst. unfold use_ct. f_equal.
      apply (nth_ext _ _ 0 0); [exact E4|]. intros n Hn. rewrite E4 in Hn. change (nth n ini 0) with (vecR ini n). rewrite E5 by exact Hn.
      destruct n as [|[|n]]; cbn in *; [unfold label_count; cbn; lra|reflexivity|lia].
    + destruct (round_ct_succeeds use_ct [] use_cset 1) as (m' & ll & E); [split; assumption|exact A| |right; exact P|].
      * exists (["init"; "b"]%string, [1]), 1%Z. split; [left; reflexivity|]. apply (P _ 1%Z). left; reflexivity.
      * do 4 eexists. apply one_round, E.
Qed.

Example C133_gohmm_instance : GoHMM_new (go_mat ex_go) (go_out ex_go) (IniList (go_ini ex_go)) "ex" = Ok ex_go /\ wf_gohmm 1 ex_go /\ go_full 1 ex_go /\
  obs_dim 1 (weighted ex_gset) /\ pos_times (weighted ex_gset) /\ varied 1 (weighted ex_gset) /\
  exists m' c ll b, bw_loop (round_GoHMM 1 1 (weighted ex_gset)) 0 1 None 0 ex_go = Ok (m', c, ll, b).
Proof.
  destruct C71_C75_instance as (W & St & Si & F & U & Ho & V & E). split; [|split; [exact W|split; [exact F|split; [|split; [|split; [exact V|exact E]]]]]].
  - change "ex"%string with (go_name ex_go). apply (go_rebuild 1); auto; [unfold go_n; cbn; lia|intros r I; apply row_ok_one, St, I|lra|].
    intros s k Hs Hk. left. apply F; assumption.
  - intros tr t I o Io. apply in_combine_l in I. eauto.
  - intros st [<-|[<-|[]]]; cbn; lia.
Qed.
