(** C149 for MDPs and CTMCs with dwell times: when all labels are different, one
    round of learning gives the frequencies observed in the traces, and no model
    explains the traces better. *)
From Coq Require Import String ZArith Bool Reals List Lia Lra.
From Verif Require Import Num Py SNum SPath LSum MSet SSet LSet MModels MLik MBW LFB LEM SBW LBW LBWSet SLik LPath LLik LLik2 LBWLoop LBWPath SExp LEMGen LBWMDP LBWCT PLik LFit PBWMDP PBWCT LBWMC SObs LObs PObs.
Import ListNotations.
Local Open Scope R_scope.

(** ** MDP *)
Lemma alt_len tr : alternating tr -> length (evens tr) = S (length (odds tr)).
Proof. intros A. pose proof (odds_len tr A) as L. assert (NE : evens tr <> []) by (destruct tr as [|o [|o' r]]; discriminate). rewrite (app_removelast_last EmptyString NE) , app_length, <- L. cbn. lia. Qed.
Lemma under_nonneg x tr c : In c (under x tr) -> 0 <= c.
Proof. intros I. apply in_map_iff in I. destruct I as [y [<- _]]. destruct (String.eqb y x); lra. Qed.
Lemma mdp_left_nonneg a x set : pos_times set -> 0 <= mdp_times_left a x set.
Proof. intros HT. apply (total_nonneg _ _ HT). intros. apply left_pos_nonneg. intros c. apply under_nonneg. Qed.

Theorem C149_mdp_round : forall (m m' : mdp R) (p : nat) (set : list (list string * Z)) (ll : R),
  wf_mdp m -> nonneg_mdp m -> NoDup (mdp_lab m) -> alternating_set set ->
  (forall tr t, In (tr, t) set -> 0 < mdp_trace_prob m tr) ->
  round_MDP p set m = Ok (m', ll) ->
  forall s j s', (s < mdp_n m)%nat -> (j < length (mdp_act m))%nat -> (s' < mdp_n m)%nat ->
    let a := nth s (mdp_lab m) EmptyString in
    let x := nth j (mdp_act m) EmptyString in
    let b := nth s' (mdp_lab m) EmptyString in
    prob_of m' s j s' = if Req_EM_T (mdp_times_left a x set) 0 then prob_of m s j s' else mdp_moves_seen a x b set / mdp_times_left a x set.
Proof.
  intros m m' p set ll W N ND A HP E s j s' Hs Hj Hs' a x b.
  destruct (C73_mdp_round_is_ratio_of_expectations m m' p set ll W N A E) as (_ & _ & _ & _ & _ & _ & K). rewrite K by assumption. fold x.
  assert (Ll : length (mdp_lab m) = mdp_n m) by apply W.
  rewrite (set_expected_total _ _ (fun tr => left a (evens tr) (under x tr)) set HP), (set_expected_total _ _ (fun tr => seen a b (evens tr) (under x tr)) set HP); [reflexivity| |].
  - intros tr t I. unfold mdp_expected_moves, mdp_expected, mdp_trace_prob, under.
    replace (map (fun x0 => on_move s s' (ind (String.eqb x0 x))) (odds tr)) with (map (on_move s s') (map (fun y => if String.eqb y x then 1 else 0) (odds tr))) by (rewrite map_map; reflexivity).
    apply (moves_exact (mdp_n m) (mdp_lab m) Ll ND); rewrite ?map_length; auto. apply alt_len. apply (A tr t I).
  - intros tr t I. unfold mdp_expected_visits, mdp_expected, mdp_trace_prob, under.
    replace (map (fun x0 => on_leave s (ind (String.eqb x0 x))) (odds tr)) with (map (on_leave s) (map (fun y => if String.eqb y x then 1 else 0) (odds tr))) by (rewrite map_map; reflexivity).
    apply (leaves_exact (mdp_n m) (mdp_lab m) Ll ND); rewrite ?map_length; auto. apply alt_len. apply (A tr t I).
Qed.
Print Assumptions C149_mdp_round.

Lemma mdp_agree (m mo : mdp R) set : mdp_n mo = mdp_n m -> mdp_lab mo = mdp_lab m -> mdp_act mo = mdp_act m -> mdp_ini mo = mdp_ini m ->
  length (mdp_lab m) = mdp_n m -> NoDup (mdp_act m) -> pos_times set -> alternating_set set ->
  (forall s j s', (s < mdp_n m)%nat -> (j < length (mdp_act m))%nat -> (s' < mdp_n m)%nat ->
     0 < mdp_times_left (nth s (mdp_lab m) EmptyString) (nth j (mdp_act m) EmptyString) set -> prob_of mo s j s' = prob_of m s j s') ->
  forall tr t, In (tr, t) set -> mdp_trace_prob mo tr = mdp_trace_prob m tr.
Proof.
  intros F1 F2 F3 F4 Ll NA HT A H tr t I. unfold mdp_trace_prob. rewrite F1, F2, F4. pose proof (alt_len tr (A tr t I)) as La.
  apply (prob_agree (mdp_n m) (mdp_lab m) Ll); rewrite ?map_length; auto.
  intros k i j Hk Hi Hj E. rewrite !(nth_indep _ (fun _ _ => 0) (act_mat m EmptyString)) by (rewrite map_length; exact Hk).
  rewrite (map_nth (act_mat m)). rewrite (nth_indep (map (act_mat mo) (odds tr)) _ (act_mat mo EmptyString)) by (rewrite map_length; exact Hk). rewrite (map_nth (act_mat mo)).
  set (x := nth k (odds tr) EmptyString). destruct (in_dec string_dec x (mdp_act m)) as [Ix|Ix].
  - apply (In_nth _ _ EmptyString) in Ix. destruct Ix as (q & Hq & Eq). rewrite <- Eq at 2. rewrite act_nth by assumption. rewrite <- F3 in Eq at 1. rewrite <- Eq. rewrite act_nth by (rewrite F3; assumption).
    apply (H i q j Hi Hq Hj). rewrite F3 in Eq. rewrite Eq. apply (total_pos _ _ tr t HT); [intros; apply left_pos_nonneg; intros c; apply under_nonneg|exact I|].
    apply Rlt_le_trans with (nth k (under x tr) 0).
    + unfold under. set (g := fun y => if String.eqb y x then 1 else 0). rewrite (nth_indep _ 0 (g EmptyString)) by (rewrite map_length; exact Hk). rewrite map_nth. unfold g. fold x. rewrite String.eqb_refl. lra.
    + apply left_at; [unfold under; rewrite map_length; exact La|intros c; apply under_nonneg|unfold under; rewrite map_length; exact Hk|exact E].
  - rewrite !act_out by (rewrite ?F3; exact Ix). reflexivity.
Qed.

Theorem C149_mdp_optimal : forall (m mo : mdp R) (set : list (list string * Z)),
  wf_mdp m -> nonneg_mdp m -> mdp_rows (fun x => x <= 1) m -> NoDup (mdp_lab m) ->
  mdp_n mo = mdp_n m -> mdp_lab mo = mdp_lab m -> mdp_act mo = mdp_act m -> mdp_ini mo = mdp_ini m ->
  pos_times set -> set <> [] -> alternating_set set ->
  (forall tr t, In (tr, t) set -> 0 < mdp_trace_prob m tr) ->
  mdp_frequencies set mo ->
  (forall tr t, In (tr, t) set -> 0 < mdp_trace_prob mo tr) /\
  set_ll (mdp_trace_prob m) set <= set_ll (mdp_trace_prob mo) set.
Proof.
  intros m mo set W N S ND F1 F2 F3 F4 HT NE A HP HF.
  destruct (round_mdp_succeeds m set 1 (conj W N) A) as (m' & ll & E); [|right; exact HP|].
  { destruct set as [|[tr t] r]; [congruence|]. exists tr, t. split; [left; reflexivity|]. apply (HP tr t). left. reflexivity. }
  destruct (C40_mdp_round_likelihood m m' 1 set ll W N S HT A E) as (_ & M & Q).
  destruct (C73_mdp_round_is_ratio_of_expectations m m' 1 set ll W N A E) as (G1 & G2 & G3 & _ & G5 & _).
  assert (Ag : forall tr t, In (tr, t) set -> mdp_trace_prob mo tr = mdp_trace_prob m' tr).
  { apply (mdp_agree m' mo set); try congruence; auto; try (rewrite ?G1, ?G2, ?G5; apply W).
    intros s j s' Hs Hj Hs' Lt. rewrite G5 in Hs, Hs'. rewrite G1, G2 in *. rewrite (C149_mdp_round m m' 1 set ll W N ND A HP E) by assumption.
    destruct (Req_EM_T _ 0) as [Z|Z]; [lra|]. unfold prob_of. rewrite HF by (rewrite ?F1, ?F2, ?F3; assumption). rewrite F2, F3. reflexivity. }
  split; [intros tr t I; rewrite (Ag tr t I); apply (Q tr t I), (HP tr t I)|]. rewrite (set_ll_ext _ _ set Ag). exact M.
Qed.
Print Assumptions C149_mdp_optimal.

(** ** CTMC with dwell times *)
Theorem C149_ctmc_timed_round : forall (m m' : ctmc R) (fixed : list (list bool)) (p : nat) set (ll : R),
  wf_ctmc m -> nonneg_mat (ct_mat m) -> NoDup (ct_lab m) -> timed_set set ->
  (forall tr t, In (tr, t) set -> 0 < ct_density m tr) ->
  round_CTMC_timed p fixed set m = Ok (m', ll) ->
  forall s s', (s < ct_n m)%nat -> (s' < ct_n m)%nat -> is_fixed fixed s s' = false ->
    let a := nth s (ct_lab m) EmptyString in
    let b := nth s' (ct_lab m) EmptyString in
    rate m' s s' = if Req_EM_T (ct_time_seen a set) 0 then rate m s s' else ct_moves_seen a b set / ct_time_seen a set.
Proof.
  intros m m' fixed p set ll W N ND A HP E s s' Hs Hs' NF a b.
  destruct (C73_ctmc_timed_round_is_ratio_of_expectations m m' fixed p set ll W N A E) as (_ & _ & _ & _ & _ & _ & K & _). rewrite K by assumption.
  assert (Ll : length (ct_lab m) = ct_n m) by apply W.
  rewrite (set_expected_total _ _ (fun tr => left a (fst tr) (snd tr)) set HP), (set_expected_total _ _ (fun tr => seen a b (fst tr) (map (fun _ => 1) (snd tr))) set HP); [reflexivity| |].
  - intros tr t I. unfold ct_expected_moves, ct_expected, ct_density.
    replace (map (fun _ : R => on_move s s' 1) (snd tr)) with (map (on_move s s') (map (fun _ => 1) (snd tr))) by (rewrite map_map; reflexivity).
    apply (moves_exact (ct_n m) (ct_lab m) Ll ND); rewrite ?map_length; auto. apply (A tr t I).
  - intros tr t I. unfold ct_expected_dwell, ct_expected, ct_density.
    replace (map (fun t0 : R => on_leave s t0) (snd tr)) with (map (on_leave s) (snd tr)) by reflexivity.
    apply (leaves_exact (ct_n m) (ct_lab m) Ll ND); rewrite ?map_length; auto. apply (A tr t I).
Qed.
Print Assumptions C149_ctmc_timed_round.

Lemma ct_agree (m mo : ctmc R) (set : list ((list string * list R) * Z)) : square (ct_n m) (ct_mat m) -> square (ct_n m) (ct_mat mo) -> ct_lab mo = ct_lab m -> ct_ini mo = ct_ini m ->
  length (ct_lab m) = ct_n m -> pos_times set -> timed_set set -> (forall tr t d, In (tr, t) set -> In d (snd tr) -> 0 < d) ->
  (forall s s', (s < ct_n m)%nat -> (s' < ct_n m)%nat -> 0 < ct_time_seen (nth s (ct_lab m) EmptyString) set -> rate mo s s' = rate m s s') ->
  forall tr t, In (tr, t) set -> ct_density mo tr = ct_density m tr.
Proof.
  intros Sm So F2 F3 Ll HT A HD H tr t I. assert (F1 : ct_n mo = ct_n m) by apply So. unfold ct_density. rewrite F1, F2, F3. destruct (A tr t I) as [La Nn].
  apply (prob_agree (ct_n m) (ct_lab m) Ll); rewrite ?map_length; auto.
  intros k i j Hk Hi Hj E. rewrite (nth_indep (map (jump_density mo) (snd tr)) _ (jump_density mo 0)) by (rewrite map_length; exact Hk). rewrite (map_nth (jump_density mo)).
  rewrite (nth_indep (map (jump_density m) (snd tr)) _ (jump_density m 0)) by (rewrite map_length; exact Hk). rewrite (map_nth (jump_density m)).
  assert (P : 0 < ct_time_seen (nth i (ct_lab m) EmptyString) set).
  { apply (total_pos _ _ tr t HT); [intros x u J; apply left_pos_nonneg; apply (A x u J)|exact I|].
    apply Rlt_le_trans with (nth k (snd tr) 0); [apply (HD tr t _ I); apply nth_In; exact Hk|]. apply left_at; assumption. }
  unfold jump_density. assert (Ex : exit_rate mo i = exit_rate m i).
  { unfold exit_rate. rewrite (row_sum_Sum (ct_mat mo) (ct_n m) i So Hi), (row_sum_Sum (ct_mat m) (ct_n m) i Sm Hi). apply Sum_ext. intros q Hq. apply (H i q Hi Hq P). }
  rewrite Ex. f_equal. apply (H i j Hi Hj P).
Qed.

Theorem C149_ctmc_timed_optimal : forall (m mo : ctmc R) (set : list ((list string * list R) * Z)),
  wf_ctmc m -> nonneg_mat (ct_mat m) -> NoDup (ct_lab m) ->
  square (ct_n m) (ct_mat mo) -> ct_lab mo = ct_lab m -> ct_ini mo = ct_ini m ->
  pos_times set -> set <> [] -> timed_set set -> (forall tr t d, In (tr, t) set -> In d (snd tr) -> 0 < d) ->
  (forall tr t, In (tr, t) set -> 0 < ct_density m tr) ->
  ct_frequencies set mo ->
  (forall tr t, In (tr, t) set -> 0 < ct_density mo tr) /\
  set_ll (ct_density m) set <= set_ll (ct_density mo) set.
Proof.
  intros m mo set W N ND So F2 F3 HT NE A HD HP HF. assert (F1 : ct_n mo = ct_n m) by apply So.
  destruct (round_ct_succeeds m [] set 1 (conj W N) A) as (m' & ll & E); [|right; exact HP|].
  { destruct set as [|[tr t] r]; [congruence|]. exists tr, t. split; [left; reflexivity|]. apply (HP tr t). left. reflexivity. }
  destruct (C41_ctmc_timed_round_likelihood m m' [] 1 set ll W N A HT E) as (_ & M & Q).
  destruct (C73_ctmc_timed_round_is_ratio_of_expectations m m' [] 1 set ll W N A E) as (G1 & G2 & _ & G4 & G5 & _).
  assert (Ag : forall tr t, In (tr, t) set -> ct_density mo tr = ct_density m' tr).
  { apply (ct_agree m' mo set); try congruence; auto; try (rewrite ?G4, ?G1; auto; apply W).
    intros s s' Hs Hs' Lt. rewrite G4 in Hs, Hs'. rewrite G1 in Lt.
    rewrite (C149_ctmc_timed_round m m' [] 1 set ll W N ND A HP E s s' Hs Hs') by (unfold is_fixed; destruct s; destruct s'; reflexivity).
    destruct (Req_EM_T _ 0) as [Z|Z]; [lra|]. unfold rate. rewrite HF by (rewrite ?F1, ?F2; assumption). rewrite F2. reflexivity. }
  split; [intros tr t I; rewrite (Ag tr t I); apply (Q tr t I), (HP tr t I)|]. rewrite (set_ll_ext _ _ set Ag). exact M.
Qed.
Print Assumptions C149_ctmc_timed_optimal.
