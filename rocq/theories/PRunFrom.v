(** Theorems C147: simulation from a state chosen by the caller. *)
From Coq Require Import String ZArith Bool Reals List Lra Lia.
From Verif Require Import Num Py SNum LSum MTools LTools SPath LPath MSet SSet LSet MModels MCtor SBW SLik MRun SRun LCtor LRun PRun MRunFrom.
Import ListNotations.
Local Open Scope R_scope.

(** ** Vocabulary *)
(** The distribution which starts in state [s] with certainty. *)
Definition starts_in (ini : list R) (n s : nat) : Prop := length ini = n /\ is_dist ini /\ vecR ini s = 1 /\ forall j, j <> s -> vecR ini j = 0.
(** A first draw before the others. *)
Definition scons {A} (r : A) (d : nat -> A) (k : nat) : A := match k with O => r | S k' => d k' end.
(** The state designated by an explicit [current] in a model with [n] states:
    Python's convention for indices (-1 excepted, which asks for an initial state). *)
Definition designates (n : nat) (current : Z) (s : nat) : Prop :=
  current <> (-1)%Z /\ (s < n)%nat /\ (current = Z.of_nat s \/ current = (Z.of_nat s - Z.of_nat n)%Z).
Definition designates_none (n : nat) (current : Z) : Prop := current <> (-1)%Z /\ (current < - Z.of_nat n \/ Z.of_nat n <= current)%Z.

Lemma designates_cases n c : (c = -1)%Z \/ designates_none n c \/ exists s, designates n c s.
Proof.
  destruct (Z.eq_dec c (-1)); [left; assumption|right]. unfold designates_none, designates.
  destruct (Z_lt_dec c (- Z.of_nat n)); [left; lia|]. destruct (Z_lt_dec c (Z.of_nat n)); [|left; lia].
  right. destruct (Z_lt_dec c 0).
  - exists (Z.to_nat (c + Z.of_nat n)). rewrite Z2Nat.id by lia. split; [assumption|]. split; [lia|right; lia].
  - exists (Z.to_nat c). rewrite Z2Nat.id by lia. split; [assumption|]. split; [lia|left; lia].
Qed.
Lemma starts_select ini n s r : starts_in ini n s -> unit_draw r -> resolveRandom ini r = Ok s.
Proof.
  intros (L & D & S1 & S0) U. destruct (dist_selects _ _ D U) as (k & E & (_ & P & _)). destruct (Nat.eq_dec k s) as [->|N]; [exact E|]. rewrite (S0 k N) in P. lra.
Qed.
Lemma pyget_designates {A} (l : list A) n c s : length l = n -> designates n c s -> pyget l c = pyget l (Z.of_nat s).
Proof.
  intros L (_ & Ls & [->| ->]); [reflexivity|]. unfold pyget. rewrite L. destruct (Z.ltb_spec (Z.of_nat s - Z.of_nat n) 0); [|lia].
  destruct (Z.ltb_spec (Z.of_nat s) 0); [lia|]. replace (Z.of_nat s - Z.of_nat n + Z.of_nat n)%Z with (Z.of_nat s) by lia. reflexivity.
Qed.
Lemma pyget_out {A} (l : list A) n c : length l = n -> designates_none n c -> pyget l c = Err IndexError.
Proof.
  intros L (_ & H). unfold pyget. rewrite L. destruct (Z.ltb_spec c 0).
  - destruct (Z.ltb_spec (c + Z.of_nat n) 0); [reflexivity|lia].
  - destruct (Z.leb_spec (Z.of_nat n) c); [rewrite orb_true_r; reflexivity|lia].
Qed.

(** ** MC *)
Lemma mc_shift (m : mc R) r0 draws k c i : mc_run_from m k c (scons r0 draws) (S i) = mc_run_from m k c draws i.
Proof.
  revert c i; induction k as [|k IH]; intros c i; cbn [mc_run_from]; [reflexivity|]. cbn [scons].
  destruct (mc_next m c (draws i)) as [x|]; cbn [bind]; [|reflexivity]. rewrite IH. reflexivity.
Qed.
Lemma mc_from_designates (m : mc R) c s k draws i : wf_mc m -> designates (mc_n m) c s -> mc_run_from m k c draws i = mc_run_from m k (Z.of_nat s) draws i.
Proof.
  intros (_ & Ll & _) D. destruct k; cbn [mc_run_from]; [rewrite (pyget_designates _ _ _ _ Ll D); reflexivity|].
  unfold mc_next. rewrite (pyget_designates (mc_mat m) _ _ _ eq_refl D), (pyget_designates (mc_lab m) _ _ _ Ll D). reflexivity.
Qed.
(** run(n, current) is run(n) on the same model started in that state, whatever
    the draw used to choose the initial state: so everything proved about run from
    an initial state (C22, C139) holds from the chosen state. *)
Theorem C147_mc_run_from : forall (m : mc R) (n c : Z) (s : nat) (ini : list R) (draws : nat -> R) r0,
  wf_mc m -> designates (mc_n m) c s -> starts_in ini (mc_n m) s -> unit_draw r0 ->
  mc_run m n c draws = mc_run (mkMC (mc_mat m) (mc_lab m) ini (mc_name m)) n (-1) (scons r0 draws).
Proof.
  intros m n c s ini draws r0 W D SI U. unfold mc_run. destruct (Z.eqb_spec c (-1)); [destruct D; contradiction|].
  change (-1 =? -1)%Z with true. cbv iota. cbn [mc_ini scons]. rewrite (starts_select _ _ _ _ SI U). cbn [bind].
  rewrite mc_shift, (mc_from_designates m c s _ _ _ W D).
  generalize 0%nat as i, (Z.of_nat s) as c0, (Z.to_nat n) as k. clear. intros i c0 k. revert i c0; induction k as [|k IH]; intros i c0; cbn [mc_run_from]; [reflexivity|].
  change (mc_next (mkMC (mc_mat m) (mc_lab m) ini (mc_name m)) c0 (draws i)) with (mc_next m c0 (draws i)). destruct (mc_next m c0 (draws i)); cbn [bind]; [|reflexivity]. rewrite IH. reflexivity.
Qed.
Print Assumptions C147_mc_run_from.
(** Read directly: the labels of a path which starts in the designated state. *)
Theorem C147_mc_run_path : forall (m : mc R) (steps : nat) (c : Z) (s : nat) draws,
  wf_mc m -> all_dist (mc_mat m) -> (forall k, unit_draw (draws k)) -> designates (mc_n m) c s ->
  exists x, length x = steps /\ follows (mc_row m) draws 0 s x /\ mc_run m (Z.of_nat steps) c draws = Ok (map (fun j => nth j (mc_lab m) EmptyString) (s :: x)).
Proof.
  intros m steps c s draws W AD U D. unfold mc_run. destruct (Z.eqb_spec c (-1)); [destruct D; contradiction|]. rewrite Nat2Z.id, (mc_from_designates m c s _ _ _ W D).
  destruct (mc_run_from_ok m steps s draws 0 W AD U) as (x & A & B & _ & E); [apply D|]. eauto.
Qed.
Print Assumptions C147_mc_run_path.
Theorem C147_mc_run_out : forall (m : mc R) n c draws, wf_mc m -> designates_none (mc_n m) c -> mc_run m n c draws = Err IndexError.
Proof.
  intros m n c draws (_ & Ll & _) D. unfold mc_run. destruct (Z.eqb_spec c (-1)); [destruct D; contradiction|]. destruct (Z.to_nat n); cbn [mc_run_from]; [rewrite (pyget_out _ _ _ Ll D); reflexivity|].
  unfold mc_next. rewrite (pyget_out (mc_mat m) _ _ eq_refl D). reflexivity.
Qed.
Print Assumptions C147_mc_run_out.

(** ** HMM *)
Lemma hmm_shift (m : hmm R) r0 draws k c i : hmm_run_from m k c (scons r0 draws) (S i) = hmm_run_from m k c draws i.
Proof.
  revert c i; induction k as [|k IH]; intros c i; cbn [hmm_run_from]; [reflexivity|]. change (scons r0 draws (S i)) with (draws i). change (scons r0 draws (S (S i))) with (draws (S i)).
  destruct (hmm_next m c (draws i) (draws (S i))) as [x|]; cbn [bind]; [|reflexivity]. rewrite IH. reflexivity.
Qed.
Lemma hmm_from_designates (m : hmm R) c s k draws i : wf_hmm m -> designates (hmm_n m) c s -> hmm_run_from m k c draws i = hmm_run_from m k (Z.of_nat s) draws i.
Proof.
  intros (_ & Lo & _) D. destruct k; cbn [hmm_run_from]; [reflexivity|].
  unfold hmm_next. rewrite (pyget_designates (hmm_mat m) _ _ _ eq_refl D), (pyget_designates (hmm_out m) _ _ _ Lo D). reflexivity.
Qed.
Theorem C147_hmm_run_from : forall (m : hmm R) (n c : Z) (s : nat) (ini : list R) (draws : nat -> R) r0,
  wf_hmm m -> designates (hmm_n m) c s -> starts_in ini (hmm_n m) s -> unit_draw r0 ->
  hmm_run m n c draws = hmm_run (mkHMM (hmm_mat m) (hmm_out m) (hmm_alph m) ini (hmm_name m)) n (-1) (scons r0 draws).
Proof.
  intros m n c s ini draws r0 W D SI U. unfold hmm_run. destruct (Z.eqb_spec c (-1)); [destruct D; contradiction|].
  change (-1 =? -1)%Z with true. cbv iota. cbn [hmm_ini scons]. rewrite (starts_select _ _ _ _ SI U). cbn [bind].
  rewrite hmm_shift, (hmm_from_designates m c s _ _ _ W D).
  generalize 0%nat as i, (Z.of_nat s) as c0, (Z.to_nat n) as k. clear. intros i c0 k. revert i c0; induction k as [|k IH]; intros i c0; cbn [hmm_run_from]; [reflexivity|].
  change (hmm_next (mkHMM (hmm_mat m) (hmm_out m) (hmm_alph m) ini (hmm_name m)) c0 (draws i) (draws (S i))) with (hmm_next m c0 (draws i) (draws (S i))). destruct (hmm_next m c0 (draws i) (draws (S i))); cbn [bind]; [|reflexivity]. rewrite IH. reflexivity.
Qed.
Print Assumptions C147_hmm_run_from.
Theorem C147_hmm_run_path : forall (m : hmm R) (steps : nat) (c : Z) (s : nat) draws,
  wf_hmm m -> all_dist (hmm_mat m) -> all_dist (hmm_out m) -> (forall k, unit_draw (draws k)) -> designates (hmm_n m) c s ->
  exists x, length x = steps /\ hmm_follows (hmm_row m) (hmm_orow m) draws 0 s x /\ hmm_run m (Z.of_nat steps) c draws = Ok (map (fun p => nth (snd p) (hmm_alph m) EmptyString) x).
Proof.
  intros m steps c s draws W AD AO U D. unfold hmm_run. destruct (Z.eqb_spec c (-1)); [destruct D; contradiction|]. rewrite Nat2Z.id, (hmm_from_designates m c s _ _ _ W D).
  apply hmm_run_from_ok; auto. apply D.
Qed.
Print Assumptions C147_hmm_run_path.
(** No state is read when no step is asked for. *)
Theorem C147_hmm_run_out : forall (m : hmm R) n c draws, designates_none (hmm_n m) c -> hmm_run m n c draws = if (n <=? 0)%Z then Ok [] else Err IndexError.
Proof.
  intros m n c draws D. unfold hmm_run. destruct (Z.eqb_spec c (-1)); [destruct D; contradiction|]. destruct (Z.leb_spec n 0).
  - replace (Z.to_nat n) with O by lia. reflexivity.
  - destruct (Z.to_nat n) eqn:E; [lia|]. cbn [hmm_run_from]. unfold hmm_next. rewrite (pyget_out (hmm_mat m) _ _ eq_refl D). reflexivity.
Qed.
Print Assumptions C147_hmm_run_out.

(** ** GoHMM *)
Lemma go_shift (m : gohmm R) r0 draws x0 normal k c i : go_run_from m k c (scons r0 draws) (scons x0 normal) (S i) = go_run_from m k c draws normal i.
Proof.
  revert c i; induction k as [|k IH]; intros c i; cbn [go_run_from]; [reflexivity|]. cbn [scons].
  destruct (go_next m c (draws i) (normal i)) as [x|]; cbn [bind]; [|reflexivity]. rewrite IH. reflexivity.
Qed.
Lemma go_from_designates (m : gohmm R) c s k draws normal i : length (go_out m) = go_n m -> designates (go_n m) c s -> go_run_from m k c draws normal i = go_run_from m k (Z.of_nat s) draws normal i.
Proof.
  intros Lo D. destruct k; cbn [go_run_from]; [reflexivity|].
  unfold go_next. rewrite (pyget_designates (go_mat m) _ _ _ eq_refl D), (pyget_designates (go_out m) _ _ _ Lo D). reflexivity.
Qed.
Theorem C147_gohmm_run_from : forall (m : gohmm R) (n c : Z) (s : nat) (ini : list R) (draws : nat -> R) r0 normal x0,
  length (go_out m) = go_n m -> designates (go_n m) c s -> starts_in ini (go_n m) s -> unit_draw r0 ->
  go_run m n c draws normal = go_run (mkGO (go_mat m) (go_out m) ini (go_name m)) n (-1) (scons r0 draws) (scons x0 normal).
Proof.
  intros m n c s ini draws r0 normal x0 W D SI U. unfold go_run. destruct (Z.eqb_spec c (-1)); [destruct D; contradiction|].
  change (-1 =? -1)%Z with true. cbv iota. cbn [go_ini scons]. rewrite (starts_select _ _ _ _ SI U). cbn [bind].
  rewrite go_shift, (go_from_designates m c s _ _ _ _ W D).
  generalize 0%nat as i, (Z.of_nat s) as c0, (Z.to_nat n) as k. clear. intros i c0 k. revert i c0; induction k as [|k IH]; intros i c0; cbn [go_run_from]; [reflexivity|].
  change (go_next (mkGO (go_mat m) (go_out m) ini (go_name m)) c0 (draws i) (normal i)) with (go_next m c0 (draws i) (normal i)). destruct (go_next m c0 (draws i) (normal i)); cbn [bind]; [|reflexivity]. rewrite IH. reflexivity.
Qed.
Print Assumptions C147_gohmm_run_from.
Theorem C147_gohmm_run_out : forall (m : gohmm R) n c draws normal, designates_none (go_n m) c -> go_run m n c draws normal = if (n <=? 0)%Z then Ok [] else Err IndexError.
Proof.
  intros m n c draws normal D. unfold go_run. destruct (Z.eqb_spec c (-1)); [destruct D; contradiction|]. destruct (Z.leb_spec n 0).
  - replace (Z.to_nat n) with O by lia. reflexivity.
  - destruct (Z.to_nat n) eqn:E; [lia|]. cbn [go_run_from]. unfold go_next. rewrite (pyget_out (go_mat m) _ _ eq_refl D). reflexivity.
Qed.
Print Assumptions C147_gohmm_run_out.

(** ** MDP: for every scheduler *)
Lemma mdp_ini_run {S} (m : mdp R) ini (sch : scheduler R S) k st s draws :
  mdp_run_from (mkMDP (mdp_mat m) (mdp_lab m) (mdp_act m) ini (mdp_name m)) sch k st s draws = mdp_run_from m sch k st s draws.
Proof.
  revert st s draws; induction k as [|k IH]; intros st s draws; [reflexivity|].
  assert (G : forall d, mdp_choose (mkMDP (mdp_mat m) (mdp_lab m) (mdp_act m) ini (mdp_name m)) sch st s d = mdp_choose m sch st s d).
  { induction d as [|r d IHd]; [reflexivity|]. cbn [mdp_choose]. rewrite IHd. reflexivity. }
  cbn [mdp_run_from]. rewrite G. destruct (mdp_choose m sch st s draws) as [[[a|e] [|r d]]|]; try reflexivity.
  change (mdp_next (mkMDP (mdp_mat m) (mdp_lab m) (mdp_act m) ini (mdp_name m)) s a r) with (mdp_next m s a r).
  destruct (mdp_next m s a r) as [[s' o]|]; [|reflexivity]. destruct (sch_obs sch st o); [|reflexivity]. rewrite IH. reflexivity.
Qed.
Theorem C147_mdp_run_from : forall S (m : mdp R) (sch : scheduler R S) st (n c : Z) (s : nat) (ini : list R) (draws : list R) r0,
  designates (mdp_n m) c s -> starts_in ini (mdp_n m) s -> unit_draw r0 ->
  mdp_run_at m sch st n c draws = mdp_run_at (mkMDP (mdp_mat m) (mdp_lab m) (mdp_act m) ini (mdp_name m)) sch st n (-1) (r0 :: draws).
Proof.
  intros S m sch st n c s ini draws r0 (D1 & D2 & D3) SI U. unfold mdp_run_at. destruct (Z.eqb_spec c (-1)); [contradiction|].
  change (-1 =? -1)%Z with true. cbv iota. unfold mdp_run. cbn [mdp_ini]. rewrite (starts_select _ _ _ _ SI U), mdp_ini_run.
  replace (if (c <? 0)%Z then (c + Z.of_nat (mdp_n m))%Z else c) with (Z.of_nat s).
  2:{ destruct D3 as [->| ->]; [destruct (Z.ltb_spec (Z.of_nat s) 0)|destruct (Z.ltb_spec (Z.of_nat s - Z.of_nat (mdp_n m)) 0)]; lia. }
  destruct (Z.leb_spec 0 (Z.of_nat s)); [|lia]. destruct (Z.ltb_spec (Z.of_nat s) (Z.of_nat (mdp_n m))); [|lia]. cbn [andb]. rewrite Nat2Z.id. reflexivity.
Qed.
Print Assumptions C147_mdp_run_from.
(** Out of range: an exception of the scheduler, or IndexError; never a trace. *)
Theorem C147_mdp_run_out : forall S (m : mdp R) (sch : scheduler R S) st n c draws x, designates_none (mdp_n m) c -> mdp_run_at m sch st n c draws = Some x ->
  x = Err IndexError \/ exists r e, In r draws /\ sch_get sch (sch_reset sch st) r = Err e /\ x = Err e.
Proof.
  intros S m sch st n c draws x [D1 D2] E. unfold mdp_run_at in E. destruct (Z.eqb_spec c (-1)); [contradiction|].
  replace ((0 <=? _) && (_ <? _))%Z with false in E.
  2:{ symmetry. apply andb_false_iff. destruct (Z.ltb_spec c 0); [left; apply Z.leb_gt; lia|right; apply Z.ltb_ge; lia]. }
  destruct (Z.to_nat n); [injection E as <-; left; reflexivity|]. destruct draws as [|r d]; [discriminate|]. destruct (sch_get sch (sch_reset sch st) r) as [a|e] eqn:Eg; injection E as <-; [left; reflexivity|].
  right. exists r, e. split; [left; reflexivity|auto].
Qed.
Print Assumptions C147_mdp_run_out.
(** The default value -1 keeps its meaning. *)
Theorem C147_mdp_default : forall S (m : mdp R) (sch : scheduler R S) st n draws, mdp_run_at m sch st n (-1) draws = mdp_run m sch st n draws.
Proof. reflexivity. Qed.
Print Assumptions C147_mdp_default.

(** ** generateSet(timed=True) on an untimed model *)
Lemma resolve_first_row (p q : list R) r : is_dist p -> nonneg q -> unit_draw r -> resolveRandom (p ++ q) r = resolveRandom p r.
Proof.
  intros D Nq U. destruct (dist_selects _ _ D U) as (k & E & (L & P & C)). rewrite E. apply selected_iff; [|apply U|].
  - intros x I. apply in_app_or in I as [I|I]; [apply D, I|apply Nq, I].
  - unfold selected. rewrite app_length. split; [lia|]. unfold vecR in *. rewrite app_nth1 by exact L. split; [exact P|].
    rewrite firstn_app. replace (k - length p)%nat with O by lia. cbn [firstn]. rewrite app_nil_r. exact C.
Qed.
Lemma concat_nonneg (m : list (list R)) : all_dist m -> nonneg (concat m).
Proof. intros H x I. apply in_concat in I as (r & Ir & Ix). apply (H r Ir). exact Ix. Qed.
(** MC: every trace starts with the label of state 1 and goes on from state 0. *)
Theorem C147_mc_generate_timed_refuted : forall (m : mc R) (steps : nat) draws, wf_mc m -> all_dist (mc_mat m) -> (2 <= mc_n m)%nat -> (forall k, unit_draw (draws k)) ->
  exists x, length x = S steps /\ follows (mc_row m) draws 0 0 x /\
    mc_run_true m (Z.of_nat (S steps)) draws = Ok (nth 1 (mc_lab m) EmptyString :: map (fun j => nth j (mc_lab m) EmptyString) x).
Proof.
  intros m steps draws W AD N U. pose proof W as ((Lm & Lr) & Ll & _). unfold mc_run_true. rewrite Nat2Z.id.
  unfold mc_n in *. destruct (mc_mat m) as [|r0 rest] eqn:Em; [cbn in N; lia|]. cbn [concat].
  rewrite (resolve_first_row r0 (concat rest)); [|apply AD; left; reflexivity|apply concat_nonneg; intros r I; apply AD; right; exact I|apply U].
  destruct (dist_selects r0 (draws 0%nat)) as (c & Ec & Sc); [apply AD; left; reflexivity|apply U|]. rewrite Ec. cbn [bind].
  change 1%Z with (Z.of_nat 1). rewrite (pyget_nth (mc_lab m) 1 EmptyString) by lia. cbn [bind].
  assert (Lc : (c < mc_n m)%nat). { destruct Sc as [L _]. rewrite (Lr r0 (or_introl eq_refl)) in L. unfold mc_n. rewrite Em. exact L. }
  assert (AD' : all_dist (mc_mat m)) by (rewrite Em; exact AD).
  destruct (mc_run_from_ok m steps c draws 1 W AD' U Lc) as (x & Lx & Fx & _ & Ex). rewrite Ex. cbn [bind]. exists (c :: x).
  split; [cbn; lia|]. split; [|reflexivity]. split; [|exact Fx]. unfold mc_row. rewrite Em. exact Sc.
Qed.
Print Assumptions C147_mc_generate_timed_refuted.
(** Two states which never communicate: a trace of probability 0. *)
Definition ex_apart : mc R := mkMC [[1; 0]; [0; 1]] ["a"; "b"]%string [1/2; 1/2] EmptyString.
Example C147_mc_generate_instance : exists tr, mc_run_true ex_apart 2 (fun _ => 1/2) = Ok tr /\ mc_trace_prob ex_apart tr = 0.
Proof.
  assert (W : wf_mc ex_apart). { split; [split; [reflexivity|intros r [<-|[<-|[]]]; reflexivity]|]. split; [reflexivity|]. split; [reflexivity|]. intros x [<-|[<-|[]]]; lra. }
  assert (AD : all_dist (mc_mat ex_apart)). { intros r [<-|[<-|[]]]; split; try (cbn; lra); intros x [<-|[<-|[]]]; lra. }
  destruct (C147_mc_generate_timed_refuted ex_apart 1 (fun _ => 1/2) W AD) as (x & Lx & Fx & E); [cbn; lia|intros _; unfold unit_draw; lra|].
  eexists. split; [exact E|]. destruct x as [|a [|b [|]]]; cbn in Lx; try lia. destruct Fx as ((La & Pa & _) & (Lb & Pb & _) & _).
  unfold mc_row in *. cbn in La. destruct a as [|[|a]]; [|exfalso; unfold vecR in Pa; cbn in Pa; lra|lia].
  cbn in Lb. destruct b as [|[|b]]; [|exfalso; unfold vecR in Pb; cbn in Pb; lra|lia].
  unfold mc_trace_prob, trace_prob, sumL, is_label, matR, vecR. cbn. ring.
Qed.
(** HMM: every trace starts in state 0, whatever the initial distribution. *)
Theorem C147_hmm_generate_timed_refuted : forall (m : hmm R) (n : Z) draws, wf_hmm m -> all_dist (hmm_mat m) -> all_dist (hmm_out m) -> (1 <= hmm_n m)%nat -> (forall k, unit_draw (draws k)) ->
  hmm_run_true m n draws = hmm_run m n 0 draws.
Proof.
  intros m n draws W AD AO N U. pose proof W as ((Lm & Lr) & Lo & _). unfold hmm_run_true, hmm_run. change (0 =? -1)%Z with false. cbv iota.
  destruct (Z.to_nat n) as [|k]; [reflexivity|]. cbn [hmm_run_from]. unfold hmm_next. change 0%Z with (Z.of_nat 0).
  unfold hmm_n in *. destruct (hmm_mat m) as [|r0 rest] eqn:Em; [cbn in N; lia|]. destruct (hmm_out m) as [|o0 orest] eqn:Eo; [cbn in Lo, N; lia|].
  rewrite !pyget_nat. cbn [nth_error bind concat].
  rewrite (resolve_first_row r0 (concat rest)); [|apply AD; left; reflexivity|apply concat_nonneg; intros r I; apply AD; right; exact I|apply U].
  rewrite (resolve_first_row o0 (concat orest)); [|apply AO; left; reflexivity|apply concat_nonneg; intros r I; apply AO; right; exact I|apply U].
  destruct (resolveRandom r0 (draws 0%nat)); cbn [bind]; [|reflexivity]. destruct (resolveRandom o0 (draws 1%nat)); cbn [bind]; [|reflexivity].
  destruct (pyget (hmm_alph m) _); cbn [bind]; reflexivity.
Qed.
Print Assumptions C147_hmm_generate_timed_refuted.

(** ** Instances *)
Example C147_instance : designates 2 0 0 /\ designates 2 (-2) 0 /\ designates 2 1 1 /\ designates_none 2 2 /\ designates_none 2 (-3) /\ starts_in [1; 0] 2 0 /\
  (exists tr, mc_run ex_mc 3 (-2) (fun _ => 3/4) = Ok tr /\ length tr = 4%nat /\ hd EmptyString tr = "a"%string) /\
  (exists tr, hmm_run ex_hmm 3 1 (fun _ => 3/4) = Ok tr /\ length tr = 3%nat).
Proof.
  assert (D0 : designates 2 (-2) 0) by (unfold designates; lia). assert (D1 : designates 2 1 1) by (unfold designates; lia).
  split; [unfold designates; lia|]. split; [exact D0|]. split; [exact D1|]. split; [unfold designates_none; lia|]. split; [unfold designates_none; lia|].
  split. { split; [reflexivity|]. split; [split; [intros x [<-|[<-|[]]]; lra|cbn; lra]|]. split; [reflexivity|]. intros [|[|j]] Nj; try contradiction; [reflexivity|]. unfold vecR. destruct j; reflexivity. }
  destruct C22_instance as (W & AD & _ & U & _). destruct C23_instance as (Wh & AH & OH & _). split.
  - destruct (C147_mc_run_path ex_mc 3 (-2) 0 (fun _ => 3/4) W AD (fun _ => U) D0) as (x & Lx & _ & E). eexists. split; [exact E|]. cbn [map hd length]. rewrite map_length. split; [lia|reflexivity].
  - destruct (C147_hmm_run_path ex_hmm 3 1 1 (fun _ => 3/4) Wh AH OH (fun _ => U) D1) as (x & Lx & _ & E). eexists. split; [exact E|]. rewrite map_length. exact Lx.
Qed.
