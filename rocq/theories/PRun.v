(** Theorems C18, C22-C26, C60-C62: simulation, generated sets, schedulers. *)
From Coq Require Import String ZArith Bool Reals List Lra Lia.
From Verif Require Import Num Py SNum LSum MTools LTools SPath LPath MSet SSet LSet MModels MCtor SBW SLik MRun SRun LCtor LRun.
Import ListNotations.
Local Open Scope R_scope.

Ltac nodup := repeat (apply NoDup_cons; [cbn; intuition discriminate|]); apply NoDup_nil.

(** ** C22: MC.run *)

Definition mc_row (m : mc R) (s : nat) : list R := nth s (mc_mat m) [].
Definition all_dist (m : list (list R)) : Prop := forall r, In r m -> is_dist r.

Lemma mc_run_from_ok m steps s draws i : wf_mc m -> all_dist (mc_mat m) -> (forall k, unit_draw (draws k)) -> (s < mc_n m)%nat ->
  exists x, length x = steps /\ follows (mc_row m) draws i s x /\ (forall j, In j x -> (j < mc_n m)%nat) /\
    mc_run_from m steps (Z.of_nat s) draws i = Ok (map (fun j => nth j (mc_lab m) EmptyString) (s :: x)).
Proof.
  intros ((Lm & Lr) & Ll & _) AD UD. revert s i; induction steps as [|k IH]; intros s i Ls; cbn [mc_run_from].
  - exists []. rewrite (pyget_nth _ _ EmptyString) by lia. cbn. repeat split. intros j [].
  - unfold mc_next. rewrite (pyget_nth (mc_mat m) s []) by (unfold mc_n in Ls; exact Ls). cbn [bind].
    assert (Ir : In (nth s (mc_mat m) []) (mc_mat m)) by (apply nth_In; unfold mc_n in Ls; lia).
    destruct (dist_selects _ (draws i) (AD _ Ir) (UD i)) as (c & Ec & Sc). rewrite Ec. cbn [bind].
    rewrite (pyget_nth (mc_lab m) s EmptyString) by lia. cbn [bind fst snd].
    assert (Lc : (c < mc_n m)%nat) by (destruct Sc as [L _]; rewrite (Lr _ Ir) in L; exact L).
    destruct (IH c (S i) Lc) as (x & Lx & Fx & Rx & Ex). exists (c :: x). rewrite Ex. cbn [bind].
    split; [cbn; lia|]. split; [split; [exact Sc|exact Fx]|]. split; [intros j [<-|J]; auto|]. reflexivity.
Qed.

Theorem C22_mc_run : forall (m : mc R) (steps : nat) draws,
  wf_mc m -> all_dist (mc_mat m) -> is_dist (mc_ini m) -> (forall k, unit_draw (draws k)) ->
  exists s x, length x = steps /\ selected (mc_ini m) (draws O) s /\ follows (mc_row m) draws 1 s x /\
    mc_run m (Z.of_nat steps) (-1) draws = Ok (map (fun j => nth j (mc_lab m) EmptyString) (s :: x)).
Proof.
  intros m steps draws W AD DI UD. unfold mc_run. cbn [Z.eqb].
  destruct (dist_selects _ (draws O) DI (UD O)) as (c & Ec & Sc).
  change (-1 =? -1)%Z with true. cbv iota. rewrite Ec. cbn [bind]. rewrite Nat2Z.id.
  assert (Lc : (c < mc_n m)%nat). { destruct Sc as [L _]. destruct W as (_ & _ & Li & _). lia. }
  destruct (mc_run_from_ok m steps c draws 1 W AD UD Lc) as (x & Lx & Fx & Rx & Ex). exists c, x. auto.
Qed.
Print Assumptions C22_mc_run.

Lemma follows_range row draws i s x n : (forall j, (j < n)%nat -> length (row j) = n) -> (s < n)%nat -> follows row draws i s x ->
  forall j, In j (s :: x) -> (j < n)%nat.
Proof.
  intros LR. revert s i; induction x as [|s' x IH]; intros s i Ls F j [<-|I]; try exact Ls; [destruct I|].
  destruct F as [[L _] F]. rewrite LR in L by exact Ls. apply (IH s' (S i) L F j I).
Qed.
Lemma follows_weight m draws i s x labels : follows (mc_row m) draws i s x ->
  0 < path_weight (repeat (matR (mc_mat m)) (length x)) (map (is_label labels) (map (fun j => nth j labels EmptyString) (s :: x))) (s :: x).
Proof.
  revert s i; induction x as [|s' x IH]; intros s i F.
  - cbn. unfold is_label. rewrite String.eqb_refl. lra.
  - destruct F as [(_ & P & _) F]. specialize (IH s' (S i) F). cbn [length repeat map path_weight] in *.
    unfold is_label at 1. rewrite String.eqb_refl. rewrite Rmult_1_l.
    apply Rmult_lt_0_compat; [exact P|exact IH].
Qed.
Lemma is_label_nonneg l o s : 0 <= is_label l o s.
Proof. unfold is_label. destruct (String.eqb _ _); lra. Qed.
Lemma matR_nonneg m i j : nonneg_mat m -> 0 <= matR m i j.
Proof.
  intros N. unfold matR. destruct (Nat.lt_ge_cases i (length m)).
  - destruct (Nat.lt_ge_cases j (length (nth i m []))); [|rewrite (nth_overflow (nth i m [])) by lia; lra].
    apply (N (nth i m [])); apply nth_In; assumption.
  - rewrite (nth_overflow m) by lia. destruct j; cbn; lra.
Qed.
Lemma vecR_nonneg l i : nonneg l -> 0 <= vecR l i.
Proof.
  intros N. unfold vecR. destruct (Nat.lt_ge_cases i (length l)); [apply N, nth_In; assumption|]. rewrite nth_overflow by lia. lra.
Qed.

(** So every generated trace has a positive probability in the model. *)
Theorem C22_mc_run_possible : forall (m : mc R) (steps : nat) draws tr,
  wf_mc m -> all_dist (mc_mat m) -> is_dist (mc_ini m) -> (forall k, unit_draw (draws k)) ->
  mc_run m (Z.of_nat steps) (-1) draws = Ok tr -> length tr = S steps /\ 0 < mc_trace_prob m tr.
Proof.
  intros m steps draws tr W AD DI UD E.
  destruct (C22_mc_run m steps draws W AD DI UD) as (s & x & Lx & Ss & Fx & E'). assert (tr = map (fun j => nth j (mc_lab m) EmptyString) (s :: x)) as -> by congruence.
  split; [rewrite map_length; cbn; lia|]. unfold mc_trace_prob.
  destruct W as ((Lm & Lr) & Ll & Li & Ni).
  assert (Ls : (s < mc_n m)%nat) by (destruct Ss as [L _]; lia).
  assert (RG : forall j, In j (s :: x) -> (j < mc_n m)%nat).
  { apply (follows_range (mc_row m) draws 1); [|exact Ls|exact Fx]. intros j Lj. apply Lr, nth_In. unfold mc_n in Lj. exact Lj. }
  apply (trace_prob_pos _ _ _ _ (s :: x)).
  - rewrite !map_length. reflexivity.
  - exact RG.
  - intros i _. apply vecR_nonneg, Ni.
  - intros A i j I _ _. apply repeat_spec in I. subst A. apply matR_nonneg. intros r Ir. apply (AD r Ir).
  - intros B i I _. apply in_map_iff in I as (o & <- & _). apply is_label_nonneg.
  - discriminate.
  - cbn [hd]. apply Ss.
  - rewrite map_length. cbn [length]. rewrite Nat.sub_succ, Nat.sub_0_r. eapply follows_weight, Fx.
Qed.
Print Assumptions C22_mc_run_possible.

(** A chain accepted by the constructor may have states without outgoing
    transition, or rows whose sum is slightly below 1: then run raises
    IndexError for some draws. *)
Theorem C22_run_raises_refuted : forall (m : mc R) (s : nat) steps draws i,
  (s < mc_n m)%nat -> nonneg (mc_row m s) -> unit_draw (draws i) ->
  rsum (mc_row m s) = 0 \/ rsum (mc_row m s) < draws i ->
  mc_run_from m (S steps) (Z.of_nat s) draws i = Err IndexError.
Proof.
  intros m s steps draws i Ls N [U _] H. cbn [mc_run_from]. unfold mc_next. rewrite (pyget_nth (mc_mat m) s []) by (unfold mc_n in Ls; exact Ls).
  cbn [bind]. fold (mc_row m s). rewrite (proj2 (resolveRandom_err (mc_row m s) (draws i) N U)); [reflexivity|tauto].
Qed.
Print Assumptions C22_run_raises_refuted.

Definition ex_mc : mc R := mkMC [[0; 1]; [1/2; 1/2]] ["a"; "init"]%string [0; 1] EmptyString.
Example C22_instance : wf_mc ex_mc /\ all_dist (mc_mat ex_mc) /\ is_dist (mc_ini ex_mc) /\ unit_draw (3/4) /\
  exists tr, mc_run ex_mc 5 (-1) (fun _ => 3/4) = Ok tr /\ length tr = 6%nat.
Proof.
  assert (W : wf_mc ex_mc).
  { split; [split; [reflexivity|intros r [<-|[<-|[]]]; reflexivity]|]. split; [reflexivity|]. split; [reflexivity|].
    intros x [<-|[<-|[]]]; lra. }
  assert (AD : all_dist (mc_mat ex_mc)).
  { intros r [<-|[<-|[]]]; split; try (cbn; lra); intros x [<-|[<-|[]]]; lra. }
  assert (DI : is_dist (mc_ini ex_mc)). { split; [intros x [<-|[<-|[]]]; lra|cbn; lra]. }
  assert (U : unit_draw (3/4)) by (unfold unit_draw; lra).
  split; [exact W|]. split; [exact AD|]. split; [exact DI|]. split; [exact U|].
  destruct (C22_mc_run ex_mc 5 (fun _ => 3/4) W AD DI (fun _ => U)) as (s & x & L & _ & _ & E).
  eexists. split; [exact E|]. rewrite map_length. cbn. lia.
Qed.

(** ** C23: HMM.run *)
Definition hmm_row (m : hmm R) (s : nat) : list R := nth s (hmm_mat m) [].
Definition hmm_orow (m : hmm R) (s : nat) : list R := nth s (hmm_out m) [].

Lemma hmm_run_from_ok m steps s draws i : wf_hmm m -> all_dist (hmm_mat m) -> all_dist (hmm_out m) -> (forall k, unit_draw (draws k)) -> (s < hmm_n m)%nat ->
  exists x, length x = steps /\ hmm_follows (hmm_row m) (hmm_orow m) draws i s x /\
    hmm_run_from m steps (Z.of_nat s) draws i = Ok (map (fun p => nth (snd p) (hmm_alph m) EmptyString) x).
Proof.
  intros ((Lm & Lr) & Lo & Ro & _) AD AO UD. revert s i; induction steps as [|k IH]; intros s i Ls; cbn [hmm_run_from].
  - exists []. repeat split.
  - unfold hmm_next. rewrite (pyget_nth (hmm_mat m) s []) by (unfold hmm_n in Ls; exact Ls). cbn [bind].
    assert (Ir : In (nth s (hmm_mat m) []) (hmm_mat m)) by (apply nth_In; unfold hmm_n in Ls; lia).
    assert (Io : In (nth s (hmm_out m) []) (hmm_out m)) by (apply nth_In; lia).
    destruct (dist_selects _ (draws i) (AD _ Ir) (UD i)) as (c & Ec & Sc). rewrite Ec. cbn [bind].
    rewrite (pyget_nth (hmm_out m) s []) by lia. cbn [bind].
    destruct (dist_selects _ (draws (S i)) (AO _ Io) (UD (S i))) as (o & Eo & So). rewrite Eo. cbn [bind].
    assert (Lc : (c < hmm_n m)%nat) by (destruct Sc as [L _]; rewrite (Lr _ Ir) in L; exact L).
    assert (Lo' : (o < length (hmm_alph m))%nat) by (destruct So as [L _]; rewrite (Ro _ Io) in L; exact L).
    rewrite (pyget_nth (hmm_alph m) o EmptyString) by exact Lo'. cbn [bind fst snd].
    destruct (IH c (S (S i)) Lc) as (x & Lx & Fx & Ex). exists ((c, o) :: x). rewrite Ex. cbn [bind].
    split; [cbn; lia|]. split; [split; [exact Sc|split; [exact So|exact Fx]]|]. reflexivity.
Qed.
Theorem C23_hmm_run : forall (m : hmm R) (steps : nat) draws,
  wf_hmm m -> all_dist (hmm_mat m) -> all_dist (hmm_out m) -> is_dist (hmm_ini m) -> (forall k, unit_draw (draws k)) ->
  exists s x, length x = steps /\ selected (hmm_ini m) (draws O) s /\ hmm_follows (hmm_row m) (hmm_orow m) draws 1 s x /\
    hmm_run m (Z.of_nat steps) (-1) draws = Ok (map (fun p => nth (snd p) (hmm_alph m) EmptyString) x).
Proof.
  intros m steps draws W AD AO DI UD. unfold hmm_run.
  destruct (dist_selects _ (draws O) DI (UD O)) as (c & Ec & Sc).
  change (-1 =? -1)%Z with true. cbv iota. rewrite Ec. cbn [bind]. rewrite Nat2Z.id.
  assert (Lc : (c < hmm_n m)%nat). { destruct Sc as [L _]. destruct W as (_ & _ & _ & _ & Li & _). lia. }
  destruct (hmm_run_from_ok m steps c draws 1 W AD AO UD Lc) as (x & Lx & Fx & Ex). exists c, x. auto.
Qed.
Print Assumptions C23_hmm_run.

Lemma emit_pos m s k : all_dist (hmm_out m) -> (k < length (hmm_alph m))%nat -> 0 < matR (hmm_out m) s k ->
  0 < emit m (nth k (hmm_alph m) EmptyString) s.
Proof.
  intros AO Lk P. assert (N : nonneg_mat (hmm_out m)) by (intros r Ir; apply (AO r Ir)).
  unfold emit. apply (Sum_pos _ _ k).
  - intros j _. destruct (String.eqb _ _); [apply matR_nonneg, N|lra].
  - exact Lk.
  - rewrite String.eqb_refl. exact P.
Qed.
Lemma emit_nonneg m o s : all_dist (hmm_out m) -> 0 <= emit m o s.
Proof.
  intros AO. assert (N : nonneg_mat (hmm_out m)) by (intros r Ir; apply (AO r Ir)).
  apply Sum_nonneg. intros j _. destruct (String.eqb _ _); [apply matR_nonneg, N|lra].
Qed.
Lemma hmm_follows_weight m draws i s x : wf_hmm m -> all_dist (hmm_out m) -> (s < hmm_n m)%nat ->
  hmm_follows (hmm_row m) (hmm_orow m) draws i s x ->
  (forall j, In j (s :: map fst x) -> (j < hmm_n m)%nat) /\
  0 < path_weight (repeat (matR (hmm_mat m)) (length x)) (map (emit m) (map (fun p => nth (snd p) (hmm_alph m) EmptyString) x) ++ [fun _ => 1]) (s :: map fst x).
Proof.
  intros ((Lm & Lr) & Lo & Ro & _) AO. revert s i; induction x as [|[s' o] x IH]; intros s i Ls F.
  - cbn. split; [intros j [<-|[]]; exact Ls|lra].
  - destruct F as [(L1 & P1 & _) [(L2 & P2 & _) F]].
    unfold hmm_row in L1. rewrite Lr in L1 by (apply nth_In; exact Ls).
    unfold hmm_orow in L2. rewrite Ro in L2 by (apply nth_In; rewrite Lo; exact Ls).
    destruct (IH s' (S (S i)) L1 F) as [R W]. split; [intros j [<-|I]; [exact Ls|apply R, I]|].
    cbn [length repeat map app fst snd]. cbn [path_weight].
    apply Rmult_lt_0_compat; [apply emit_pos; assumption|].
    destruct (map (emit m) (map (fun p => nth (snd p) (hmm_alph m) EmptyString) x) ++ [fun _ => 1]) as [|B Bs] eqn:EB.
    { destruct x; discriminate. }
    apply Rmult_lt_0_compat; [exact P1|exact W].
Qed.
(** The probability of the trace followed by a last move is positive. *)
Theorem C23_hmm_run_possible : forall (m : hmm R) (steps : nat) draws tr,
  wf_hmm m -> all_dist (hmm_mat m) -> all_dist (hmm_out m) -> is_dist (hmm_ini m) -> (forall k, unit_draw (draws k)) ->
  hmm_run m (Z.of_nat steps) (-1) draws = Ok tr -> length tr = steps /\ 0 < hmm_trace_prob_move m tr.
Proof.
  intros m steps draws tr W AD AO DI UD E.
  destruct (C23_hmm_run m steps draws W AD AO DI UD) as (s & x & Lx & Ss & Fx & E').
  assert (tr = map (fun p => nth (snd p) (hmm_alph m) EmptyString) x) as -> by congruence.
  split; [rewrite map_length; exact Lx|]. unfold hmm_trace_prob_move.
  assert (Ls : (s < hmm_n m)%nat) by (destruct Ss as [L _]; destruct W as (_ & _ & _ & _ & Li & _); lia).
  destruct (hmm_follows_weight m draws 1 s x W AO Ls Fx) as [RG WP].
  apply (trace_prob_pos _ _ _ _ (s :: map fst x)).
  - rewrite app_length, !map_length. cbn. rewrite map_length. lia.
  - exact RG.
  - intros i _. apply vecR_nonneg, W.
  - intros A i j I _ _. apply repeat_spec in I. subst A. apply matR_nonneg. intros r Ir. apply (AD r Ir).
  - intros B i I _. apply in_app_or in I as [I|[<-|[]]]; [|lra]. apply in_map_iff in I as (o & <- & _). apply emit_nonneg, AO.
  - destruct (map (emit m) _); discriminate.
  - cbn [hd]. apply Ss.
  - rewrite map_length. exact WP.
Qed.
Print Assumptions C23_hmm_run_possible.
Definition ex_hmm : hmm R := mkHMM [[0; 1]; [1/2; 1/2]] [[1; 0]; [1/3; 2/3]] ["a"; "b"]%string [1/4; 3/4] EmptyString.
Example C23_instance : wf_hmm ex_hmm /\ all_dist (hmm_mat ex_hmm) /\ all_dist (hmm_out ex_hmm) /\ is_dist (hmm_ini ex_hmm).
Proof.
  split.
  { split; [split; [reflexivity|intros r [<-|[<-|[]]]; reflexivity]|]. split; [reflexivity|].
    split; [intros r [<-|[<-|[]]]; reflexivity|]. split; [nodup|].
    split; [reflexivity|]. intros x [<-|[<-|[]]]; lra. }
  split; [|split].
  - intros r [<-|[<-|[]]]; (split; [intros x [<-|[<-|[]]]; lra|cbn; lra]).
  - intros r [<-|[<-|[]]]; (split; [intros x [<-|[<-|[]]]; lra|cbn; lra]).
  - split; [intros x [<-|[<-|[]]]; lra|cbn; lra].
Qed.

(** GoHMM.run: one vector of samples per step, drawn with the parameters of the
    state that is left. *)
Definition go_row (m : gohmm R) (s : nat) : list R := nth s (go_mat m) [].
Fixpoint go_emitted (m : gohmm R) (normal : nat -> nat -> R * R -> R) (i s : nat) (x : list nat) : list (list R) :=
  match x with
  | [] => []
  | s' :: x' => map (fun k => normal i k (nth k (nth s (go_out m) []) (0, 0))) (seq 0 (length (nth s (go_out m) []))) :: go_emitted m normal (S i) s' x'
  end.
Lemma zipwith_seq {A B} (f : nat -> A -> B) d l i : zipwith f (seq i (length l)) l = map (fun k => f k (nth (k - i) l d)) (seq i (length l)).
Proof.
  revert i; induction l as [|x l IH]; intros i; cbn [length seq zipwith map]; [reflexivity|].
  rewrite Nat.sub_diag. cbn [nth]. f_equal. rewrite IH. apply map_ext_in. intros k I. apply in_seq in I.
  replace (k - i)%nat with (S (k - S i)) by lia. reflexivity.
Qed.
Theorem C23_gohmm_run : forall (m : gohmm R) (steps : nat) draws normal,
  square (go_n m) (go_mat m) -> length (go_out m) = go_n m -> length (go_ini m) = go_n m ->
  all_dist (go_mat m) -> is_dist (go_ini m) -> (forall k, unit_draw (draws k)) ->
  exists s x, length x = steps /\ selected (go_ini m) (draws O) s /\ follows (go_row m) draws 1 s x /\
    go_run m (Z.of_nat steps) (-1) draws normal = Ok (go_emitted m normal 1 s x).
Proof.
  intros m steps draws normal [Lm Lr] Lo Li AD DI UD. unfold go_run.
  destruct (dist_selects _ (draws O) DI (UD O)) as (c & Ec & Sc).
  change (-1 =? -1)%Z with true. cbv iota. rewrite Ec. cbn [bind]. rewrite Nat2Z.id.
  assert (Lc : (c < go_n m)%nat). { destruct Sc as [L _]. lia. }
  assert (G : forall steps s i, (s < go_n m)%nat -> exists x, length x = steps /\ follows (go_row m) draws i s x /\
     go_run_from m steps (Z.of_nat s) draws normal i = Ok (go_emitted m normal i s x)).
  { clear steps Lc Sc Ec c. induction steps as [|k IH]; intros s i Ls; cbn [go_run_from]; [exists []; repeat split|].
    unfold go_next. rewrite (pyget_nth (go_mat m) s []) by (unfold go_n in Ls; exact Ls). cbn [bind].
    assert (Ir : In (nth s (go_mat m) []) (go_mat m)) by (apply nth_In; unfold go_n in Ls; lia).
    destruct (dist_selects _ (draws i) (AD _ Ir) (UD i)) as (c & Ec & Sc). rewrite Ec. cbn [bind].
    rewrite (pyget_nth (go_out m) s []) by lia. cbn [bind fst snd].
    assert (Lc : (c < go_n m)%nat) by (destruct Sc as [L _]; rewrite (Lr _ Ir) in L; exact L).
    destruct (IH c (S i) Lc) as (x & Lx & Fx & Ex). exists (c :: x). rewrite Ex. cbn [bind].
    split; [cbn; lia|]. split; [split; [exact Sc|exact Fx]|]. cbn [go_emitted]. rewrite (zipwith_seq _ (0, 0)).
    do 2 f_equal. apply map_ext. intros k'. rewrite Nat.sub_0_r. reflexivity. }
  destruct (G steps c 1%nat Lc) as (x & Lx & Fx & Ex). exists c, x. auto.
Qed.
Print Assumptions C23_gohmm_run.

(** ** C24: MDP.run *)
Lemma getActions_In (m : mdp R) s a : In a (getActions m s) <->
  exists k, (k < length (mdp_act m))%nat /\ nth k (mdp_act m) EmptyString = a /\ 0 < rsum (nth k (nth s (mdp_mat m) []) []).
Proof.
  unfold getActions. rewrite in_flat_map. split.
  - intros (k & I & J). apply in_seq in I. destruct (nltb n0 _) eqn:E; [|destruct J]. apply Rltb_true in E.
    destruct J as [<-|[]]. exists k. split; [lia|]. split; [reflexivity|exact E].
  - intros (k & L & <- & P). exists k. split; [apply in_seq; lia|]. replace (nltb _ _) with true by (symmetry; apply Rltb_true; exact P). left; reflexivity.
Qed.
Lemma mdp_choose_ok {S} (m : mdp R) (sch : scheduler R S) st s draws x l :
  mdp_choose m sch st s draws = Some (x, l) ->
  (exists l0, draws = l0 ++ l) /\
  match x with Ok a => In a (getActions m s) /\ exists r, In r draws /\ sch_get sch st r = Ok a
             | Err e => exists r, In r draws /\ sch_get sch st r = Err e end.
Proof.
  induction draws as [|r draws IH]; cbn [mdp_choose]; [discriminate|].
  destruct (sch_get sch st r) as [a|e] eqn:E.
  - destruct (memb String.eqb a (getActions m s)) eqn:M.
    + intros [= <- <-]. split; [exists [r]; reflexivity|]. split; [apply memb_str, M|]. exists r. split; [left; reflexivity|exact E].
    + intros X. destruct (IH X) as [[l0 ->] Y]. split; [exists (r :: l0); reflexivity|].
      destruct x; [destruct Y as (A & q & I & Q); split; [exact A|]|destruct Y as (q & I & Q)]; (exists q; split; [right; exact I|exact Q]).
  - intros [= <- <-]. split; [exists [r]; reflexivity|]. exists r. split; [left; reflexivity|exact E].
Qed.

(** Every row of the MDP is a distribution or empty (action not available). *)
Definition mdp_dist (m : mdp R) : Prop := forall ra r, In ra (mdp_mat m) -> In r ra -> nonneg r /\ (rsum r = 0 \/ rsum r = 1).

Lemma mdp_path_weaken m d1 d2 s x : (forall r, In r d1 -> In r d2) -> mdp_path m d1 s x -> mdp_path m d2 s x.
Proof.
  intros H. revert s; induction x as [|[a s'] x IH]; intros s; cbn; [auto|]. intros [(k & r & A & B & C & D & E) F]. split; [|apply IH, F].
  exists k, r. auto 10.
Qed.
Lemma mdp_run_from_ok {S} (m : mdp R) (sch : scheduler R S) steps st s draws res : wf_mdp m -> mdp_dist m ->
  (forall r, In r draws -> unit_draw r) -> (s < mdp_n m)%nat ->
  mdp_run_from m sch steps st s draws = Some res ->
  match res with
  | Ok tr => exists x, length x = steps /\ mdp_path m draws s x /\ tr = mdp_trace m s x
  | Err e => exists st', (exists r, In r draws /\ sch_get sch st' r = Err e) \/ exists o, sch_obs sch st' o = Err e
  end.
Proof.
  intros (SH & Ll & ND & _) DM. revert st s draws res; induction steps as [|k IH]; intros st s draws res UD Ls; cbn [mdp_run_from].
  - intros [= <-]. rewrite (at_list_nth _ _ EmptyString) by lia. cbn. exists []. repeat split.
  - destruct (mdp_choose m sch st s draws) as [[[a|e] l]|] eqn:E; try discriminate.
    2:{ intros [= <-]. exists st. left. apply mdp_choose_ok in E as [_ E]. exact E. }
    apply mdp_choose_ok in E as [[l0 ->] [A _]].
    destruct l as [|r draws']; [discriminate|].
    apply getActions_In in A as (c & Lc & <- & Pc). unfold mdp_next.
    rewrite (index_of_nth String.eqb String.eqb_eq) by assumption.
    rewrite (at_list_nth (mdp_mat m) s []) by (unfold mdp_n in Ls; exact Ls). cbn [bind].
    assert (Ira : In (nth s (mdp_mat m) []) (mdp_mat m)) by (apply nth_In; exact Ls).
    destruct (SH _ Ira) as [La Lr].
    rewrite (at_list_nth _ c []) by lia. cbn [bind].
    assert (Ir : In (nth c (nth s (mdp_mat m) []) []) (nth s (mdp_mat m) [])) by (apply nth_In; lia).
    assert (DI : is_dist (nth c (nth s (mdp_mat m) []) [])).
    { destruct (DM _ _ Ira Ir) as [N [Z|O]]; [lra|split; assumption]. }
    assert (Ur : unit_draw r) by (apply UD, in_or_app; right; left; reflexivity).
    destruct (dist_selects _ r DI Ur) as (s' & Es & Ss). rewrite Es. cbn [bind].
    rewrite (at_list_nth (mdp_lab m) s EmptyString) by lia. cbn [bind].
    destruct (sch_obs sch st (nth s (mdp_lab m) EmptyString)) as [st'|e] eqn:EO.
    2:{ intros [= <-]. exists st. right. eauto. }
    assert (Ls' : (s' < mdp_n m)%nat) by (destruct Ss as [L _]; rewrite Lr in L by exact Ir; exact L).
    destruct (mdp_run_from m sch k st' s' draws') as [[tr|e]|] eqn:ER; try discriminate.
    + intros [= <-]. apply IH in ER as (x & Lx & Px & ->); [|intros q I; apply UD, in_or_app; right; right; exact I|exact Ls'].
      exists ((nth c (mdp_act m) EmptyString, s') :: x). split; [cbn; lia|]. split; [|reflexivity].
      split.
      * exists c, r. split; [exact Lc|]. split; [reflexivity|]. split; [exact Pc|]. split; [apply in_or_app; right; left; reflexivity|exact Ss].
      * eapply mdp_path_weaken; [|exact Px]. intros q I. apply in_or_app; right; right; exact I.
    + intros [= <-]. apply IH in ER as (st2 & [(q & I & Q)|Q]); [| |intros q I; apply UD, in_or_app; right; right; exact I|exact Ls'].
      * exists st2. left. exists q. split; [apply in_or_app; right; right; exact I|exact Q].
      * exists st2. right. exact Q.
Qed.

(** Whatever the scheduler: a completed run is a path of the MDP in which every
    action is available, and a run only fails because of the scheduler. *)
Theorem C24_mdp_run : forall S (m : mdp R) (sch : scheduler R S) st (steps : nat) draws,
  wf_mdp m -> mdp_dist m -> is_dist (mdp_ini m) -> (forall r, In r draws -> unit_draw r) ->
  match mdp_run m sch st (Z.of_nat steps) draws with
  | Some (Ok tr) => exists s x, length x = steps /\ 0 < vecR (mdp_ini m) s /\ mdp_path m draws s x /\ tr = mdp_trace m s x /\
                                length tr = (2 * steps + 1)%nat
  | Some (Err e) => exists st', (exists r, In r draws /\ sch_get sch st' r = Err e) \/ exists o, sch_obs sch st' o = Err e
  | None => True
  end.
Proof.
  intros S m sch st steps draws W DM DI UD. unfold mdp_run. destruct draws as [|r draws]; [exact I|].
  destruct (dist_selects _ r DI (UD r (or_introl eq_refl))) as (c & Ec & Sc). rewrite Ec, Nat2Z.id.
  assert (Lc : (c < mdp_n m)%nat). { destruct Sc as [L _]. destruct W as (_ & _ & _ & Li & _). lia. }
  destruct (mdp_run_from m sch steps (sch_reset sch st) c draws) as [res|] eqn:E; [|exact I].
  pose proof (mdp_run_from_ok m sch steps _ c draws res W DM (fun q J => UD q (or_intror J)) Lc E) as R.
  destruct res as [tr|e].
  - destruct R as (x & Lx & Px & ->). exists c, x. split; [exact Lx|]. split; [apply Sc|].
    split; [eapply mdp_path_weaken; [|exact Px]; intros q J; right; exact J|]. split; [reflexivity|].
    unfold mdp_trace. cbn [length]. rewrite <- Lx. clear. induction x as [|[a s] x IH]; cbn [flat_map length app]; [reflexivity|]. cbn [fst snd]. lia.
  - destruct R as (st' & [(q & J & Q)|Q]); exists st'; [left; exists q; split; [right; exact J|exact Q]|right; exact Q].
Qed.
Print Assumptions C24_mdp_run.

Lemma mdp_trace_parts m s x : evens (mdp_trace m s x) = map (fun j => nth j (mdp_lab m) EmptyString) (s :: map snd x) /\
  odds (mdp_trace m s x) = map fst x.
Proof.
  unfold mdp_trace. revert s; induction x as [|[a s'] x IH]; intros s; [split; reflexivity|].
  cbn [flat_map fst snd app map evens odds]. destruct (IH s') as [A B]. cbn [map evens odds] in A, B.
  split; f_equal; assumption.
Qed.
Lemma act_mat_pos m k s s' : mdp_dist m -> (s < mdp_n m)%nat -> wf_mdp m -> (k < length (mdp_act m))%nat ->
  0 < vecR (nth k (nth s (mdp_mat m) []) []) s' -> 0 < act_mat m (nth k (mdp_act m) EmptyString) s s'.
Proof.
  intros DM Ls (SH & _) Lk P. unfold act_mat. apply (Sum_pos _ _ k); [|exact Lk|rewrite String.eqb_refl; exact P].
  intros j Lj. destruct (String.eqb _ _); [|lra].
  assert (Ira : In (nth s (mdp_mat m) []) (mdp_mat m)) by (apply nth_In; exact Ls).
  apply (vecR_nonneg (nth j (nth s (mdp_mat m) []) []) s'). apply (DM _ _ Ira). apply nth_In. destruct (SH _ Ira). lia.
Qed.
(** So its probability under its own actions is positive. *)
Theorem C24_mdp_run_possible : forall S (m : mdp R) (sch : scheduler R S) st (steps : nat) draws tr,
  wf_mdp m -> mdp_dist m -> is_dist (mdp_ini m) -> (forall r, In r draws -> unit_draw r) ->
  mdp_run m sch st (Z.of_nat steps) draws = Some (Ok tr) -> 0 < mdp_trace_prob m tr.
Proof.
  intros S m sch st steps draws tr W DM DI UD E. pose proof (C24_mdp_run S m sch st steps draws W DM DI UD) as H. rewrite E in H.
  destruct H as (s & x & Lx & Ps & Px & -> & _). unfold mdp_trace_prob. destruct (mdp_trace_parts m s x) as [-> ->].
  assert (Ls : (s < mdp_n m)%nat).
  { destruct W as (_ & _ & _ & Li & _). destruct (Nat.lt_ge_cases s (mdp_n m)); [assumption|]. unfold vecR in Ps. rewrite nth_overflow in Ps by lia. lra. }
  assert (G : forall x s, (s < mdp_n m)%nat -> mdp_path m draws s x ->
    (forall j, In j (s :: map snd x) -> (j < mdp_n m)%nat) /\
    0 < path_weight (map (act_mat m) (map fst x)) (map (is_label (mdp_lab m)) (map (fun j => nth j (mdp_lab m) EmptyString) (s :: map snd x))) (s :: map snd x)).
  { clear -W DM. induction x as [|[a s'] x IH]; intros s Ls P.
    - cbn. split; [intros j [<-|[]]; exact Ls|]. unfold is_label. rewrite String.eqb_refl. lra.
    - destruct P as [(k & r & Lk & <- & _ & _ & (L & Pk & _)) P].
      assert (Ls' : (s' < mdp_n m)%nat).
      { assert (Ira : In (nth s (mdp_mat m) []) (mdp_mat m)) by (apply nth_In; exact Ls).
        destruct W as (SH & _). destruct (SH _ Ira) as [La Lr]. rewrite Lr in L; [exact L|]. apply nth_In. lia. }
      destruct (IH s' Ls' P) as [R Wt]. split; [intros j [<-|I]; [exact Ls|apply R, I]|].
      cbn [map fst snd] in *. cbn [path_weight]. unfold is_label at 1. rewrite String.eqb_refl, Rmult_1_l.
      apply Rmult_lt_0_compat; [apply act_mat_pos; assumption|exact Wt]. }
  destruct (G x s Ls Px) as [RG WP].
  apply (trace_prob_pos _ _ _ _ (s :: map snd x)).
  - rewrite !map_length. reflexivity.
  - exact RG.
  - intros i _. apply vecR_nonneg, W.
  - intros A i j I Li _. apply in_map_iff in I as (a & <- & _). apply Sum_nonneg. intros k Lk. destruct (String.eqb _ _); [|lra].
    assert (Ira : In (nth i (mdp_mat m) []) (mdp_mat m)) by (apply nth_In; exact Li).
    apply (vecR_nonneg (nth k (nth i (mdp_mat m) []) []) j). apply (DM _ _ Ira). apply nth_In. destruct W as (SH & _). destruct (SH _ Ira). lia.
  - intros B i I _. apply in_map_iff in I as (o & <- & _). apply is_label_nonneg.
  - discriminate.
  - exact Ps.
  - exact WP.
Qed.
Print Assumptions C24_mdp_run_possible.

(** The loop asking the scheduler for an available action never ends in a state
    without available action (nor with a scheduler that never proposes one). *)
Theorem C24_no_action_refuted : forall S (m : mdp R) (sch : scheduler R S) st s steps draws,
  getActions m s = [] -> (forall r, exists a, sch_get sch st r = Ok a) ->
  mdp_run_from m sch (Datatypes.S steps) st s draws = None.
Proof.
  intros S m sch st s steps draws G A. cbn [mdp_run_from].
  replace (mdp_choose m sch st s draws) with (@None (res string * list R)); [reflexivity|]. symmetry.
  induction draws as [|r draws IH]; cbn [mdp_choose]; [reflexivity|]. destruct (A r) as [a ->]. rewrite G. cbn. exact IH.
Qed.
Print Assumptions C24_no_action_refuted.

Definition ex_mdp : mdp R := mkMDP [[[0; 1]; [0; 0]]; [[1/2; 1/2]; [1; 0]]] ["a"; "init"]%string ["x"; "y"]%string [0; 1] EmptyString.
Lemma ex_mdp_ok : wf_mdp ex_mdp /\ mdp_dist ex_mdp /\ is_dist (mdp_ini ex_mdp).
Proof.
  split; [|split].
  - split; [intros ra [<-|[<-|[]]]; (split; [reflexivity|intros r [<-|[<-|[]]]; reflexivity])|].
    split; [reflexivity|]. split; [nodup|]. split; [reflexivity|].
    intros x [<-|[<-|[]]]; lra.
  - intros ra r [<-|[<-|[]]] [<-|[<-|[]]]; (split; [intros x [<-|[<-|[]]]; lra|cbn; lra]).
  - split; [intros x [<-|[<-|[]]]; lra|cbn; lra].
Qed.

Lemma sel2 p r k : nonneg p -> 0 <= r -> selected p r k -> resolveRandom p r = Ok k.
Proof. intros N H S. apply selected_iff; assumption. Qed.
Example C24_instance : mdp_run ex_mdp (UniformScheduler ["x"; "y"]%string) tt 1 [1/2; 1/4; 3/4] = Some (Ok ["init"; "x"; "init"]%string).
Proof.
  unfold mdp_run.
  rewrite (sel2 (mdp_ini ex_mdp) (1/2) 1); [|intros x [<-|[<-|[]]]; lra|lra|unfold selected, vecR; cbn; lra || (split; [lia|lra])].
  change (Z.to_nat 1) with 1%nat. cbn [mdp_run_from mdp_choose sch_get UniformScheduler]. unfold uniform_get.
  change (uniform_weights (K:=R) ["x"; "y"]%string) with [1/2; 1/2].
  rewrite (sel2 [1/2; 1/2] (1/4) 0); [|intros x [<-|[<-|[]]]; lra|lra|unfold selected, vecR; cbn; split; [lia|lra]].
  cbn [bind]. change (at_list ["x"; "y"]%string 0) with (@Ok string "x"%string). cbv iota beta.
  replace (memb String.eqb "x"%string (@getActions R RNum ex_mdp 1)) with true.
  2:{ symmetry. apply memb_str. apply getActions_In. exists O. cbn. split; [lia|]. split; [reflexivity|lra]. }
  cbv iota beta. unfold mdp_next. change (index_of String.eqb "x"%string (mdp_act ex_mdp)) with (Some O).
  change (at_list (mdp_mat ex_mdp) 1) with (@Ok (list (list R)) [[1/2; 1/2]; [1; 0]]). cbn [bind].
  change (at_list [[1/2; 1/2]; [1; 0]] 0) with (@Ok (list R) [1/2; 1/2]). cbn [bind].
  rewrite (sel2 [1/2; 1/2] (3/4) 1); [|intros x [<-|[<-|[]]]; lra|lra|unfold selected, vecR; cbn; split; [lia|lra]].
  reflexivity.
Qed.

(** ** C25: CTMC.run *)

Lemma ct_exps_nth row sample k : (k < length row)%nat ->
  nth k (ct_exps (K:=R) row sample) 0 = if Rle_dec (nth k row 0) 0 then 1024 else sample k.
Proof.
  intros L. unfold ct_exps. rewrite (zipwith_seq _ 0). set (f := fun k => _).
  rewrite (nth_indep _ 0 (f O)) by (rewrite map_length, seq_length; exact L).
  rewrite map_nth, seq_nth by exact L. unfold f. cbn [plus]. rewrite Nat.sub_0_r. nR. unfold Rleb.
  destruct (Rle_dec (nth k row 0) 0); reflexivity.
Qed.
Lemma ct_exps_length row sample : length (ct_exps (K:=R) row sample) = length row.
Proof. unfold ct_exps. rewrite (zipwith_seq _ 0), map_length, seq_length. reflexivity. Qed.

Lemma ct_next_spec (m : ctmc R) s sample : (s < ct_n m)%nat -> (s < length (ct_lab m))%nat -> nth s (ct_mat m) [] <> [] ->
  exists s' t, ct_next m s sample = Ok (nth s (ct_lab m) EmptyString, s', t) /\ (s' < length (nth s (ct_mat m) []))%nat /\
    let e k := if Rle_dec (matR (ct_mat m) s k) 0 then 1024 else sample k in
    t = e s' /\ (forall k, (k < length (nth s (ct_mat m) []))%nat -> t <= e k) /\ (forall k, (k < s')%nat -> t < e k).
Proof.
  intros Ls Ll NE. unfold ct_next. rewrite (at_list_nth (ct_mat m) s []) by exact Ls. cbn [bind].
  set (row := nth s (ct_mat m) []) in *.
  pose proof (ct_exps_length row sample) as LE. pose proof (fun k => ct_exps_nth row sample k) as NE'.
  destruct (ct_exps row sample) as [|x l] eqn:E; [destruct row; [congruence|discriminate]|].
  destruct (min_list_spec x l) as (A & B & C). set (t := min_list x l) in *.
  assert (I : In t (x :: l)) by (destruct A as [->|A]; [left; reflexivity|right; exact A]).
  destruct (index_of_In (@neqb R RNum) Reqb_true _ _ I) as [s' Es]. rewrite Es. pose proof (index_of_Some (@neqb R RNum) Reqb_true _ _ _ Es) as Ns.
  assert (Ls' : (s' < length (x :: l))%nat) by (apply nth_error_Some; congruence).
  apply nth_error_nth with (d := 0) in Ns.
  rewrite (at_list_nth (ct_lab m) s EmptyString) by exact Ll. cbn [bind].
  exists s', t. split; [reflexivity|]. split; [rewrite <- LE; exact Ls'|]. cbv zeta. unfold matR. fold row.
  assert (MIN : forall k, (k < length row)%nat -> t <= nth k (x :: l) 0).
  { intros k Lk. assert (J : In (nth k (x :: l) 0) (x :: l)) by (apply nth_In; lia). destruct J as [J|J]; [rewrite <- J; exact B|apply C, J]. }
  split; [rewrite <- NE' by lia; symmetry; exact Ns|]. split.
  - intros k Lk. rewrite <- NE' by exact Lk. apply MIN, Lk.
  - intros k Lk. rewrite <- NE' by lia. destruct (MIN k ltac:(lia)) as [H|H]; [exact H|]. exfalso.
    (* index_of gives the first index *)
    assert (F : forall (q : list R) i k, index_of (@neqb R RNum) t q = Some i -> (k < i)%nat -> nth k q 0 <> t).
    { clearbody t. clear. induction q as [|y q IH]; intros i k X Lk; [discriminate X|]. cbn in X.
      destruct (Reqb t y) eqn:Ey; [injection X as <-; lia|]. apply Reqb_false in Ey.
      destruct (index_of Reqb t q) as [j|] eqn:Ej; [|discriminate]. injection X as <-. destruct k as [|k]; cbn; [congruence|].
      apply (IH j); [exact Ej|lia]. }
    apply (F _ _ _ Es Lk). symmetry. exact H.
Qed.

(** When some transition of positive rate has a sample below 1024, the move
    follows such a transition: the one with the smallest sample, which is the
    time spent. *)
Theorem C25_ctmc_next_partial : forall (m : ctmc R) s sample,
  (s < ct_n m)%nat -> (s < length (ct_lab m))%nat ->
  (exists k, (k < length (nth s (ct_mat m) []))%nat /\ 0 < matR (ct_mat m) s k /\ sample k < 1024) ->
  exists s' t, ct_next m s sample = Ok (nth s (ct_lab m) EmptyString, s', t) /\
    (s' < length (nth s (ct_mat m) []))%nat /\ 0 < matR (ct_mat m) s s' /\ t = sample s' /\
    (forall k, (k < length (nth s (ct_mat m) []))%nat -> 0 < matR (ct_mat m) s k -> t <= sample k) /\
    (forall k, (k < s')%nat -> 0 < matR (ct_mat m) s k -> t < sample k).
Proof.
  intros m s sample Ls Ll (k & Lk & Pk & Hk).
  destruct (ct_next_spec m s sample Ls Ll) as (s' & t & E & Ls' & T & MIN & FST). { intros X. rewrite X in Lk. cbn in Lk. lia. }
  exists s', t. split; [exact E|]. split; [exact Ls'|].
  assert (t < 1024). { specialize (MIN k Lk). destruct (Rle_dec (matR (ct_mat m) s k) 0); lra. }
  destruct (Rle_dec (matR (ct_mat m) s s') 0) as [H0|H0]; [lra|]. split; [lra|]. split; [exact T|]. split.
  - intros j Lj Pj. specialize (MIN j Lj). destruct (Rle_dec (matR (ct_mat m) s j) 0); lra.
  - intros j Lj Pj. specialize (FST j Lj). destruct (Rle_dec (matR (ct_mat m) s j) 0); lra.
Qed.
Print Assumptions C25_ctmc_next_partial.

(** Otherwise (all samples above 1024, or no positive rate at all) a transition
    of rate 0, when there is one, is taken after a time of 1024. *)
Theorem C25_ctmc_next_refuted : forall (m : ctmc R) s sample,
  (s < ct_n m)%nat -> (s < length (ct_lab m))%nat ->
  (forall k, (k < length (nth s (ct_mat m) []))%nat -> 0 < matR (ct_mat m) s k -> 1024 < sample k) ->
  (exists k, (k < length (nth s (ct_mat m) []))%nat /\ matR (ct_mat m) s k <= 0) ->
  exists s', ct_next m s sample = Ok (nth s (ct_lab m) EmptyString, s', 1024) /\ matR (ct_mat m) s s' <= 0.
Proof.
  intros m s sample Ls Ll H (k & Lk & Pk).
  destruct (ct_next_spec m s sample Ls Ll) as (s' & t & E & Ls' & T & MIN & _). { intros X. rewrite X in Lk. cbn in Lk. lia. }
  specialize (MIN k Lk). destruct (Rle_dec (matR (ct_mat m) s k) 0); [|lra].
  exists s'. destruct (Rle_dec (matR (ct_mat m) s s') 0) as [H0|H0].
  - rewrite T in E. split; [exact E|exact H0].
  - specialize (H s' Ls'). lra.
Qed.
Print Assumptions C25_ctmc_next_refuted.

(** A whole run: labels of a path of positive rates, and the times are the
    selected samples, as long as in every state some positive-rate sample is
    below 1024 at each step. *)
Fixpoint ct_path (m : ctmc R) (samples : nat -> nat -> R) (i s : nat) (x : list nat) : Prop :=
  match x with
  | [] => True
  | s' :: x' => 0 < matR (ct_mat m) s s' /\
      (forall k, (k < ct_n m)%nat -> 0 < matR (ct_mat m) s k -> samples i s' <= samples i k) /\
      ct_path m samples (S i) s' x'
  end.
Fixpoint ct_times (samples : nat -> nat -> R) (i : nat) (x : list nat) : list R :=
  match x with [] => [] | s' :: x' => samples i s' :: ct_times samples (S i) x' end.
Theorem C25_ctmc_run_partial : forall (m : ctmc R) (steps : nat) r0 samples,
  wf_ctmc m -> is_dist (ct_ini m) -> unit_draw r0 ->
  (forall i s, (s < ct_n m)%nat -> exists k, (k < ct_n m)%nat /\ 0 < matR (ct_mat m) s k /\ samples i k < 1024) ->
  exists s x, length x = steps /\ selected (ct_ini m) r0 s /\ ct_path m samples 0 s x /\
    ct_run m (Z.of_nat steps) r0 samples =
      Ok (combine (map (fun j => nth j (ct_lab m) EmptyString) (s :: x)) (ct_times samples 0 x), nth (last x s) (ct_lab m) EmptyString).
Proof.
  intros m steps r0 samples ((Lm & Lr) & Ll & Li & _) DI U0 H. unfold ct_run.
  destruct (dist_selects _ r0 DI U0) as (c & Ec & Sc). rewrite Ec. cbn [bind]. rewrite Nat2Z.id.
  assert (Lc : (c < ct_n m)%nat) by (destruct Sc as [L _]; lia).
  assert (G : forall steps s i, (s < ct_n m)%nat -> exists x, length x = steps /\ ct_path m samples i s x /\
    ct_run_from m steps s samples i =
      Ok (combine (map (fun j => nth j (ct_lab m) EmptyString) (s :: x)) (ct_times samples i x), nth (last x s) (ct_lab m) EmptyString)).
  { clear steps Lc Sc Ec c. induction steps as [|k IH]; intros s i Ls; cbn [ct_run_from].
    - exists []. rewrite (at_list_nth _ _ EmptyString) by lia. repeat split.
    - assert (LR : length (nth s (ct_mat m) []) = ct_n m) by (apply Lr, nth_In; exact Ls).
      destruct (C25_ctmc_next_partial m s (samples i) Ls ltac:(lia)) as (s' & t & E & Ls' & P & -> & MIN & _).
      { rewrite LR. apply H, Ls. }
      rewrite LR in *. rewrite E. cbn [bind]. destruct (IH s' (S i) Ls') as (x & Lx & Px & Ex). rewrite Ex. cbn [bind fst snd].
      exists (s' :: x). split; [cbn; lia|]. split; [split; [exact P|split; [exact MIN|exact Px]]|].
      assert (EL : last (s' :: x) s = last x s').
      { clear. revert s s'; induction x as [|y x IH]; intros s s'; [reflexivity|]. destruct x as [|z x]; [reflexivity|]. exact (IH s s'). }
      rewrite EL. reflexivity. }
  destruct (G steps c O Lc) as (x & Lx & Px & Ex). exists c, x. auto.
Qed.
Print Assumptions C25_ctmc_run_partial.

Definition ex_ct : ctmc R := mkCTMC [[0; 2]; [3; 1]] ["a"; "init"]%string [0; 1] EmptyString.
Example C25_instance : wf_ctmc ex_ct /\ is_dist (ct_ini ex_ct) /\
  (forall i s, (s < ct_n ex_ct)%nat -> exists k, (k < ct_n ex_ct)%nat /\ 0 < matR (ct_mat ex_ct) s k /\ (fun (_ _ : nat) => 1/2) i k < 1024) /\
  (exists s', ct_next ex_ct 0 (fun _ => 2000) = Ok ("a"%string, s', 1024) /\ matR (ct_mat ex_ct) 0 s' <= 0).
Proof.
  split.
  { split; [split; [reflexivity|intros r [<-|[<-|[]]]; reflexivity]|]. split; [reflexivity|]. split; [reflexivity|]. intros x [<-|[<-|[]]]; lra. }
  split; [split; [intros x [<-|[<-|[]]]; lra|cbn; lra]|]. split.
  - intros i [|[|s]] L; cbn in L; try lia; [exists 1%nat|exists O]; cbn; (split; [lia|lra]).
  - apply (C25_ctmc_next_refuted ex_ct 0 (fun _ => 2000)); cbn; try lia.
    + intros k _ _. lra.
    + exists O. cbn. split; [lia|lra].
Qed.

(** ** C26: generateSet *)

Theorem C26_generateSet : forall {A} (eqb : A -> A -> bool) (run : nat -> Z -> res A) (k : nat) param geo min_size size tr,
  decides_eq eqb -> requested param geo min_size k size ->
  (forall i, (i < k)%nat -> run i (size i) = Ok (tr i)) ->
  let trs := map tr (seq 0 k) in
  exists ss vs, gen_lists eqb run (Z.of_nat k) param geo min_size = Ok (ss, vs) /\
    NoDup ss /\ (forall t, In t ss <-> In t trs) /\ vs = map (fun t => Z.of_nat (occ eqb t trs)) ss /\
    zsum vs = Z.of_nat k.
Proof.
  intros A eqb run k param geo min_size size tr D RQ RUN trs. unfold gen_lists. rewrite Nat2Z.id.
  rewrite (gen_loop_ok eqb D run tr size) with (acc := ([], [])); [|reflexivity| |].
  - change (fold_left (setFromList_step eqb) (map tr (seq 0 k)) ([], [])) with (setFromList eqb trs).
    pose proof (zsum_setFromList eqb D trs) as ZS. rewrite (setFromList_spec eqb D) in ZS |- *. eexists _, _. split; [reflexivity|].
    split; [apply first_occ_NoDup, D|]. split; [intros t; apply first_occ_In, D|]. split; [reflexivity|].
    cbn [snd] in ZS. unfold trs in ZS at 3. rewrite map_length, seq_length in ZS. exact ZS.
  - intros j prev L. apply (gen_size_ok _ _ _ k); [exact RQ|lia].
  - intros j L. apply RUN. lia.
Qed.
Print Assumptions C26_generateSet.

(** The resulting Set: the type is given for MDPs, and otherwise read from the
    first trace, which must have at least two elements. *)
Theorem C26_generateSet_set : forall (eqb : list (pv R) -> list (pv R) -> bool) run t (k : nat) param geo min_size size tr,
  decides_eq eqb -> requested param geo min_size k size -> (0 < k)%nat ->
  (forall i, (i < k)%nat -> run i (size i) = Ok (tr i)) ->
  t <> None \/ (2 <= length (tr O))%nat ->
  exists s, generateSet eqb run t (Z.of_nat k) param geo min_size = Ok s /\
    wf_set s /\ pos_set s /\ (forall x, mult eqb s x = Z.of_nat (occ eqb x (map tr (seq 0 k)))) /\ zsum (times s) = Z.of_nat k.
Proof.
  intros eqb run t k param geo min_size size tr D RQ Pk RUN HT. set (trs := map tr (seq 0 k)).
  assert (G : gen_lists eqb run (Z.of_nat k) param geo min_size = Ok (setFromList eqb trs)).
  { unfold gen_lists. rewrite Nat2Z.id. apply (gen_loop_ok eqb D run tr size); [reflexivity| |].
    - intros j prev L. apply (gen_size_ok _ _ _ k); [exact RQ|lia].
    - intros j L. apply RUN. lia. }
  unfold generateSet. rewrite G. cbn [bind].
  assert (F : exists ty, newSet eqb (fst (setFromList eqb trs)) (Some (snd (setFromList eqb trs))) t =
     Ok (mkset (fst (setFromList eqb trs)) (snd (setFromList eqb trs)) (Some ty))).
  { rewrite (setFromList_spec eqb D). cbn [fst snd]. unfold trs. destruct k as [|k]; [lia|]. cbn [seq map first_occ newSet].
    destruct t as [ty|]; [eexists; reflexivity|]. destruct HT as [HT|HT]; [congruence|].
    destruct (tr O) as [|v0 [|v1 l]]; cbn in HT; try lia. unfold infer_type. cbn [nth_error].
    destruct v1, v0; cbn [bind]; eexists; reflexivity. }
  destruct F as [ty ->]. eexists. split; [reflexivity|].
  split; [apply setFromList_wf, D|]. split; [exact (setFromList_times_pos eqb D trs)|].
  split; [intros x; apply setFromList_mult, D|]. cbn [times]. rewrite (zsum_setFromList eqb D). unfold trs. rewrite map_length, seq_length. reflexivity.
Qed.
Print Assumptions C26_generateSet_set.

(** Traces of length 1 (HMMs and GoHMMs with param=1, MCs with param=0): the
    constructor of Set reads sequences[0][1] and raises IndexError. *)
Theorem C26_length_one_refuted : forall (eqb : list (pv R) -> list (pv R) -> bool) run (k : nat) tr,
  decides_eq eqb -> (0 < k)%nat -> (forall i, (i < k)%nat -> run i 1%Z = Ok (tr i)) -> length (tr O) = 1%nat ->
  generateSet eqb run None (Z.of_nat k) (PInt 1) None None = Err IndexError.
Proof.
  intros eqb run k tr D Pk RUN L. unfold generateSet, gen_lists. rewrite Nat2Z.id.
  rewrite (gen_loop_ok eqb D run tr (fun _ => 1%Z)); [|reflexivity|intros j prev Lj; reflexivity|intros j Lj; apply RUN; lia].
  cbn [bind]. change (fold_left (setFromList_step eqb) (map tr (seq 0 k)) ([], [])) with (setFromList eqb (map tr (seq 0 k))).
  rewrite (setFromList_spec eqb D). destruct k as [|k]; [lia|]. cbn [fst snd seq map first_occ newSet].
  destruct (tr O) as [|v0 [|v1 l]]; cbn in L; try lia. reflexivity.
Qed.
Print Assumptions C26_length_one_refuted.

(** The traces of an MC have one observation more than asked for. *)
Theorem C26_mc_length_refuted : forall (m : mc R) (eqb : list string -> list string -> bool) (draws : nat -> nat -> R) (k n : nat),
  decides_eq eqb -> wf_mc m -> all_dist (mc_mat m) -> is_dist (mc_ini m) -> (forall i j, unit_draw (draws i j)) ->
  exists ss vs, gen_lists eqb (fun i z => mc_run m z (-1) (draws i)) (Z.of_nat k) (PInt (Z.of_nat n)) None None = Ok (ss, vs) /\
    zsum vs = Z.of_nat k /\ forall tr, In tr ss -> length tr = S n /\ 0 < mc_trace_prob m tr.
Proof.
  intros m eqb draws k n D W AD DI UD.
  assert (RUN : forall i, exists tr, mc_run m (Z.of_nat n) (-1) (draws i) = Ok tr).
  { intros i. destruct (C22_mc_run m n (draws i) W AD DI (UD i)) as (s & x & _ & _ & _ & E). eauto. }
  destruct (C26_generateSet eqb (fun i z => mc_run m z (-1) (draws i)) k (PInt (Z.of_nat n)) None None (fun _ => Z.of_nat n)
     (fun i => match mc_run m (Z.of_nat n) (-1) (draws i) with Ok tr => tr | Err _ => [] end)) as (ss & vs & E & _ & IN & _ & Z).
  - exact D.
  - intros i _. reflexivity.
  - intros i _. destruct (RUN i) as [tr Er]. rewrite Er. reflexivity.
  - exists ss, vs. split; [exact E|]. split; [exact Z|]. intros tr I. apply IN in I. apply in_map_iff in I as (i & <- & _).
    destruct (RUN i) as [tr Er]. rewrite Er. apply (C22_mc_run_possible m n (draws i) tr W AD DI (UD i) Er).
Qed.
Print Assumptions C26_mc_length_refuted.

(** A param of another type (a float without distribution='geo') and a list of
    sizes that is too short raise. *)
Theorem C26_bad_param : forall {A} (eqb : A -> A -> bool) (run : nat -> Z -> res A) (k : nat),
  gen_lists eqb run (Z.of_nat (S k)) POther None None = Err UnboundLocalError /\
  gen_lists eqb run (Z.of_nat (S k)) (PList []) None None = Err IndexError.
Proof. intros A eqb run k. unfold gen_lists. rewrite Nat2Z.id. split; reflexivity. Qed.
Print Assumptions C26_bad_param.

Lemma str_list_eqb_ok : decides_eq (fun x y : list string => if list_eq_dec String.string_dec x y then true else false).
Proof. intros x y. destruct (list_eq_dec String.string_dec x y); split; intros; congruence. Qed.
Example C26_instance : exists ss vs,
  gen_lists (fun x y : list string => if list_eq_dec String.string_dec x y then true else false)
    (fun i z => mc_run ex_mc z (-1) (fun _ => 3/4)) 4 (PInt 3) None None = Ok (ss, vs) /\ zsum vs = 4%Z.
Proof.
  destruct C22_instance as (W & AD & DI & U & _).
  destruct (C26_mc_length_refuted ex_mc _ (fun _ _ => 3/4) 4 3 str_list_eqb_ok W AD DI (fun _ _ => U)) as (ss & vs & E & Z & _). eauto.
Qed.

(** ** C60: the schedulers *)

Lemma firstn_repeat_sum (c : R) n k : (k <= n)%nat -> rsum (firstn k (repeat c n)) = INR k * c.
Proof.
  revert k; induction n as [|n IH]; intros [|k] L; try lia; cbn [repeat firstn]; try (cbn; ring).
  rewrite rsum_cons, IH by lia. rewrite S_INR. ring.
Qed.
(** UniformScheduler: the k-th of n distinct actions is returned exactly for the
    draws in (k/n, (k+1)/n] (and 0 for the first one). *)
Theorem C60_uniform : forall (actions : list string) (k : nat) r,
  NoDup actions -> (k < length actions)%nat -> unit_draw r ->
  let n := INR (length actions) in
  (uniform_get actions r = Ok (nth k actions EmptyString) <-> (INR k / n < r <= (INR k + 1) / n \/ (r = 0 /\ k = O))).
Proof.
  intros actions k r ND Lk [U0 U1] n. unfold uniform_get.
  set (c := 1 / n). assert (Pn : 0 < n) by (apply lt_0_INR; lia).
  assert (EW : uniform_weights actions = repeat c (length actions)).
  { unfold uniform_weights, c, n. nR. rewrite <- INR_IZR_INZ. reflexivity. }
  rewrite EW. set (w := repeat c (length actions)).
  assert (Pc : 0 < c) by (unfold c; apply Rdiv_lt_0_compat; lra).
  assert (N : nonneg w) by (intros x I; apply repeat_spec in I; lra).
  assert (Lw : length w = length actions) by apply repeat_length.
  assert (DI : is_dist w).
  { split; [exact N|]. rewrite <- (firstn_all w), Lw. unfold w. rewrite firstn_repeat_sum by lia. unfold c. fold n. field. lra. }
  destruct (dist_selects w r DI (conj U0 U1)) as (j & Ej & Sj). rewrite Ej. cbn [bind].
  assert (Lj : (j < length actions)%nat) by (destruct Sj as [L _]; lia).
  rewrite (at_list_nth _ _ EmptyString) by exact Lj.
  assert (SEL : selected w r k <-> (INR k / n < r <= (INR k + 1) / n \/ (r = 0 /\ k = O))).
  { unfold selected, vecR, w. rewrite firstn_repeat_sum by lia. rewrite (nth_indep _ 0 c) by (rewrite repeat_length; exact Lk).
    rewrite nth_repeat. replace (INR k * c + c) with ((INR k + 1) / n) by (unfold c; field; lra).
    replace (INR k * c) with (INR k / n) by (unfold c; field; lra). fold w. rewrite Lw. split.
    - intros (_ & _ & [H|[H1 H2]]); [left; exact H|right]. split; [exact H1|].
      destruct k as [|k]; [reflexivity|]. exfalso. rewrite S_INR in H2. pose proof (pos_INR k).
      assert (0 < (INR k + 1) / n) by (apply Rdiv_lt_0_compat; lra). lra.
    - intros H. split; [exact Lk|]. split; [exact Pc|]. destruct H as [H|[-> ->]]; [left; exact H|right]. cbn [INR].
      split; [reflexivity|]. unfold Rdiv. ring. }
  rewrite <- SEL. split.
  - intros [= E]. assert (j = k) as -> by (apply (NoDup_nth actions EmptyString); assumption). exact Sj.
  - intros Sk. rewrite (selected_unique w r j k N U0 Sj Sk). reflexivity.
Qed.
Print Assumptions C60_uniform.

Theorem C60_memoryless : forall (actions : list string) (s : nat), (s < length actions)%nat ->
  memoryless_get actions (Z.of_nat s) = Ok (nth s actions EmptyString).
Proof. intros actions s L. apply pyget_nth, L. Qed.
Print Assumptions C60_memoryless.

(** FiniteMemoryScheduler: memory states [0..n-1]; [tm] gives for each known
    observation the next memory states, [am] for each memory state the
    probabilities and actions. *)
Fixpoint fm_read (tm : list (string * list Z)) (s : nat) (obs : list string) : nat :=
  match obs with
  | [] => s
  | o :: obs' => fm_read tm (match assoc String.eqb o tm with None => s | Some dest => Z.to_nat (nth s dest 0%Z) end) obs'
  end.
Definition wf_fm (n : nat) (am : list (Z * (list R * list string))) (tm : list (string * list Z)) : Prop :=
  (forall s, (s < n)%nat -> exists ps acts, assoc Z.eqb (Z.of_nat s) am = Some (ps, acts) /\ is_dist ps /\ length ps = length acts /\ NoDup acts) /\
  (forall o dest, assoc String.eqb o tm = Some dest -> length dest = n /\ forall z, In z dest -> (0 <= z < Z.of_nat n)%Z).
(** Reading observations: unknown ones are ignored, known ones follow the table. *)
Theorem C60_finite_memory_reads : forall n am tm obs, wf_fm n am tm -> (0 < n)%nat ->
  mfold (fun s o => sch_obs (FiniteMemoryScheduler (K:=R) am tm) s o) obs (sch_reset (FiniteMemoryScheduler (K:=R) am tm) 0%Z)
    = Ok (Z.of_nat (fm_read tm 0 obs)) /\
  (fm_read tm 0 obs < n)%nat /\
  fm_read tm 0 obs = fm_read tm 0 (filter (fun o => match assoc String.eqb o tm with None => false | Some _ => true end) obs).
Proof.
  intros n am tm obs [_ W] Pn. cbn [sch_reset FiniteMemoryScheduler].
  assert (G : forall s, (s < n)%nat ->
    mfold (fun s o => sch_obs (FiniteMemoryScheduler (K:=R) am tm) s o) obs (Z.of_nat s) = Ok (Z.of_nat (fm_read tm s obs)) /\
    (fm_read tm s obs < n)%nat /\
    fm_read tm s obs = fm_read tm s (filter (fun o => match assoc String.eqb o tm with None => false | Some _ => true end) obs)).
  { induction obs as [|o obs IH]; intros s Ls; cbn [mfold fm_read filter]; [auto|].
    cbn [sch_obs FiniteMemoryScheduler]. unfold fm_obs at 1. destruct (assoc String.eqb o tm) as [dest|] eqn:E.
    - destruct (W o dest E) as [Ld Rd]. rewrite (pyget_nth dest s 0%Z) by lia. cbn [bind fm_read].
      assert (B : (0 <= nth s dest 0 < Z.of_nat n)%Z) by (apply Rd, nth_In; lia).
      assert (Ls' : (Z.to_nat (nth s dest 0%Z) < n)%nat) by lia.
      specialize (IH _ Ls'). rewrite Z2Nat.id in IH by lia. rewrite E. exact IH.
    - apply IH, Ls. }
  apply (G O Pn).
Qed.
Print Assumptions C60_finite_memory_reads.

(** In a memory state the action is drawn with the stored distribution, and
    getProbability reports the length of its interval of draws. *)
Theorem C60_finite_memory_action : forall n am tm s r, wf_fm n am tm -> (s < n)%nat -> unit_draw r ->
  exists ps acts k, assoc Z.eqb (Z.of_nat s) am = Some (ps, acts) /\ (k < length acts)%nat /\ selected ps r k /\
    sch_get (FiniteMemoryScheduler (K:=R) am tm) (Z.of_nat s) r = Ok (nth k acts EmptyString) /\
    fm_getProbability am (Z.of_nat s) (nth k acts EmptyString) None = Ok (vecR ps k) /\
    (forall a, ~ In a acts -> fm_getProbability am (Z.of_nat s) a None = Ok 0).
Proof.
  intros n am tm s r [W _] Ls U. destruct (W s Ls) as (ps & acts & E & DI & L & ND).
  destruct (dist_selects ps r DI U) as (k & Ek & Sk). assert (Lk : (k < length acts)%nat) by (destruct Sk as [X _]; lia).
  exists ps, acts, k. split; [exact E|]. split; [exact Lk|]. split; [exact Sk|].
  cbn [sch_get FiniteMemoryScheduler]. unfold fm_get, fm_getProbability. rewrite E, Ek. cbn [bind].
  split; [apply at_list_nth, Lk|]. split.
  - rewrite (index_of_nth String.eqb String.eqb_eq) by assumption. apply at_list_nth. lia.
  - intros a N. rewrite (index_of_None String.eqb String.eqb_eq) by exact N. reflexivity.
Qed.
Print Assumptions C60_finite_memory_action.

Example C60_instance :
  wf_fm 2 [(0%Z, ([1], ["x"%string])); (1%Z, ([1/2; 1/2], ["x"; "y"]%string))] [("a"%string, [1; 0]%Z)] /\
  fm_read [("a"%string, [1; 0]%Z)] 0 ["a"; "b"; "a"; "a"]%string = 1%nat.
Proof.
  split; [|reflexivity]. split.
  - intros [|[|s]] L; try lia; cbn.
    + exists [1], ["x"%string]. split; [reflexivity|]. split; [split; [intros x [<-|[]]; lra|cbn; lra]|]. split; [reflexivity|nodup].
    + exists [1/2; 1/2], ["x"; "y"]%string. split; [reflexivity|]. split; [split; [intros x [<-|[<-|[]]]; lra|cbn; lra]|]. split; [reflexivity|nodup].
  - intros o dest. cbn. destruct (String.eqb o "a"); [|discriminate]. intros [= <-]. split; [reflexivity|]. intros z [<-|[<-|[]]]; lia.
Qed.

(** ** C61: MemorylessScheduler cannot be given to MDP.run *)
Theorem C61_memoryless_refuted : forall (m : mdp R) actions (steps : nat) r r' draws,
  is_dist (mdp_ini m) -> unit_draw r ->
  mdp_run m (MemorylessScheduler (K:=R) actions) tt (Z.of_nat (S steps)) (r :: r' :: draws) = Some (Err TypeError).
Proof.
  intros m actions steps r r' draws DI U. unfold mdp_run. destruct (dist_selects _ r DI U) as (c & Ec & _). rewrite Ec, Nat2Z.id. reflexivity.
Qed.
Print Assumptions C61_memoryless_refuted.
(** The two other classes can: their getAction never raises on the actions and
    memory states they were built for. *)
Theorem C61_others : forall (m : mdp R) (steps : nat) draws actions n am tm,
  wf_mdp m -> mdp_dist m -> is_dist (mdp_ini m) -> (forall r, In r draws -> unit_draw r) -> actions <> [] -> wf_fm n am tm -> (0 < n)%nat ->
  (forall e, mdp_run m (UniformScheduler (K:=R) actions) tt (Z.of_nat steps) draws <> Some (Err e)) /\
  (forall e, mdp_run m (FiniteMemoryScheduler (K:=R) am tm) 0%Z (Z.of_nat steps) draws <> Some (Err e)).
Proof.
  intros m steps draws actions n am tm W DM DI UD NA WF Pn. split.
  - intros e E. pose proof (C24_mdp_run _ m (UniformScheduler (K:=R) actions) tt steps draws W DM DI UD) as H. rewrite E in H.
    destruct H as (st' & [(r & I & X)|(o & X)]); [|discriminate]. cbn [sch_get UniformScheduler] in X. unfold uniform_get in X.
    set (w := uniform_weights actions) in X.
    assert (Ew : w = repeat (1 / INR (length actions)) (length actions)).
    { unfold w, uniform_weights. nR. rewrite <- INR_IZR_INZ. reflexivity. }
    assert (Pa : 0 < INR (length actions)) by (apply lt_0_INR; destruct actions; [congruence|cbn; lia]).
    assert (Dw : is_dist w).
    { rewrite Ew. split.
      - intros x J. apply repeat_spec in J. subst x. apply Rlt_le, Rdiv_lt_0_compat; lra.
      - rewrite <- (firstn_all (repeat _ _)), repeat_length, firstn_repeat_sum by lia. field. lra. }
    destruct (dist_selects w r Dw (UD r I)) as (k & Ek & [Lk _]). rewrite Ek in X. cbn [bind] in X.
    rewrite (at_list_nth _ _ EmptyString) in X; [discriminate|]. rewrite Ew, repeat_length in Lk. exact Lk.
  - (* an invariant: the memory state stays in range *)
    unfold mdp_run. destruct draws as [|r0 draws]; [discriminate|].
    destruct (dist_selects _ r0 DI (UD r0 (or_introl eq_refl))) as (c & Ec & Sc). rewrite Ec, Nat2Z.id. cbn [sch_reset FiniteMemoryScheduler].
    assert (Lc : (c < mdp_n m)%nat). { destruct Sc as [L _]. destruct W as (_ & _ & _ & Li & _). lia. }
    assert (UD' : forall q, In q draws -> unit_draw q) by (intros q J; apply UD; right; exact J).
    clear UD Ec Sc r0. change 0%Z with (Z.of_nat O).
    assert (G : forall steps st s draws, (st < n)%nat -> (s < mdp_n m)%nat -> (forall q, In q draws -> unit_draw q) ->
      forall e, mdp_run_from m (FiniteMemoryScheduler (K:=R) am tm) steps (Z.of_nat st) s draws <> Some (Err e)).
    { clear draws UD' c Lc steps. induction steps as [|k IH]; intros st s draws Lst Ls UD e; cbn [mdp_run_from].
      - rewrite (at_list_nth _ _ EmptyString) by (destruct W as (_ & Ll & _); lia). discriminate.
      - destruct (mdp_choose m _ _ s draws) as [[[a|e'] l]|] eqn:E; [| |discriminate].
        2:{ exfalso. apply mdp_choose_ok in E as [_ (r & I & X)].
            destruct (C60_finite_memory_action n am tm st r WF Lst (UD r I)) as (ps & acts & k' & _ & _ & _ & Y & _). congruence. }
        apply mdp_choose_ok in E as [[l0 ->] [A _]]. destruct l as [|r draws']; [discriminate|].
        apply getActions_In in A as (c & Lc & <- & Pc). unfold mdp_next. destruct W as (SH & Ll & ND & Li & Ni).
        rewrite (index_of_nth String.eqb String.eqb_eq) by assumption.
        rewrite (at_list_nth (mdp_mat m) s []) by exact Ls. cbn [bind].
        assert (Ira : In (nth s (mdp_mat m) []) (mdp_mat m)) by (apply nth_In; exact Ls).
        destruct (SH _ Ira) as [La Lr]. rewrite (at_list_nth _ c []) by lia. cbn [bind].
        assert (Ir : In (nth c (nth s (mdp_mat m) []) []) (nth s (mdp_mat m) [])) by (apply nth_In; lia).
        assert (DJ : is_dist (nth c (nth s (mdp_mat m) []) [])) by (destruct (DM _ _ Ira Ir) as [N [Z|O]]; [lra|split; assumption]).
        destruct (dist_selects _ r DJ (UD r ltac:(apply in_or_app; right; left; reflexivity))) as (s' & Es & Ss). rewrite Es. cbn [bind].
        rewrite (at_list_nth (mdp_lab m) s EmptyString) by lia. cbn [bind].
        assert (Ls' : (s' < mdp_n m)%nat) by (destruct Ss as [L _]; rewrite Lr in L by exact Ir; exact L).
        assert (OB : exists st', (st' < n)%nat /\ sch_obs (FiniteMemoryScheduler (K:=R) am tm) (Z.of_nat st) (nth s (mdp_lab m) EmptyString) = Ok (Z.of_nat st')).
        { cbn [sch_obs FiniteMemoryScheduler]. unfold fm_obs. destruct (assoc String.eqb _ tm) as [dest|] eqn:Ed; [|exists st; auto].
          destruct (proj2 WF _ _ Ed) as [Ld Rd]. rewrite (pyget_nth dest st 0%Z) by lia.
          assert (B : (0 <= nth st dest 0 < Z.of_nat n)%Z) by (apply Rd, nth_In; lia).
          exists (Z.to_nat (nth st dest 0%Z)). split; [lia|]. rewrite Z2Nat.id by lia. reflexivity. }
        destruct OB as (st' & Lst' & ->).
        specialize (IH st' s' draws' Lst' Ls' (fun q J => UD q ltac:(apply in_or_app; right; right; exact J))).
        destruct (mdp_run_from m _ k (Z.of_nat st') s' draws') as [[tr|e']|]; [discriminate| |discriminate].
        exfalso. apply (IH e'). reflexivity. }
    intros e. apply G; assumption.
Qed.
Print Assumptions C61_others.

(** ** C62: getSequenceStates *)
Theorem C62_getSequenceStates_refuted : forall o obs, getSequenceStates (o :: obs) = Err AttributeError.
Proof. reflexivity. Qed.
Print Assumptions C62_getSequenceStates_refuted.

(** ** C18: ids returned by next *)

(** resolveRandom returns an element of a numpy array, i.e. a numpy.int64, which
    the accessors of MC reject. *)
Theorem C18_mc_next_id_refuted : forall (m : mc R) s r c l s2 o,
  mc_next m s r = Ok (c, l) ->
  MC_a m (IdNp c) s2 = Err TypeError /\ MC_tau m (IdNp c) s2 o = Err TypeError /\ getLabel (mc_n m) (mc_lab m) (IdNp c) = Err TypeError.
Proof. intros. repeat split. Qed.
Print Assumptions C18_mc_next_id_refuted.
(** CTMC.next returns a Python int, which they accept. *)
Theorem C18_ctmc_next_id : forall (m : ctmc R) s sample o s' t,
  wf_ctmc m -> (s < ct_n m)%nat -> ct_next m s sample = Ok (o, s', t) ->
  CTMC_e m (IdInt (Z.of_nat s')) = Ok (exit_rate m s') /\
  getLabel (ct_n m) (ct_lab m) (IdInt (Z.of_nat s')) = Ok (nth s' (ct_lab m) EmptyString).
Proof.
  intros m s sample o s' t ((Lm & Lr) & Ll & _) Ls E.
  assert (LR : length (nth s (ct_mat m) []) = ct_n m) by (apply Lr, nth_In; exact Ls).
  destruct (ct_next_spec m s sample Ls ltac:(lia)) as (s2 & t2 & E2 & L2 & _). { destruct (nth s (ct_mat m) []); [cbn in LR; lia|discriminate]. }
  rewrite E in E2. injection E2 as _ <- _. rewrite LR in L2.
  unfold CTMC_e, getLabel. cbn [checkStateIndex].
  destruct (Z.ltb_spec (Z.of_nat s') 0); [lia|]. destruct (Z.leb_spec (Z.of_nat (ct_n m)) (Z.of_nat s')); [lia|]. cbn [bind].
  rewrite Nat2Z.id, (at_list_nth (ct_mat m) s' []), (at_list_nth (ct_lab m) s' EmptyString) by (unfold ct_n in *; lia). split; reflexivity.
Qed.
Print Assumptions C18_ctmc_next_id.
