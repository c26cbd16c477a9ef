(** Theorems C154: the law of the simulation of GoHMMs. *)
From Coq Require Import String ZArith Bool Reals Lra Lia List.
From Verif Require Import Num Py SNum LSum MTools LTools SPath LPath MSet SSet LSet MModels MCtor SBW SLik MRun SRun LCtor LRun LFB LLik PRun PRace SLaw PLaw SGauss.
Import ListNotations.
Local Open Scope R_scope.

Fixpoint go_cells (m : gohmm R) (s : nat) (x : list nat) : list (R * R) :=
  match x with [] => [] | s' :: x' => cell (go_row m s) s' :: go_cells m s' x' end.
Definition go_box (m : gohmm R) (x : list nat) : list (R * R) :=
  match x with [] => [] | s :: x' => cell (go_ini m) s :: go_cells m s x' end.

Section Law.
  Variable m : gohmm R.
  Variable d : nat.
  Hypothesis W : wf_gohmm d m.
  Hypothesis AD : all_dist (go_mat m).
  Hypothesis DI : is_dist (go_ini m).
  Let n := go_n m.
  Lemma grow_dist s : (s < n)%nat -> is_dist (go_row m s) /\ length (go_row m s) = n.
  Proof. intros L. destruct W as ((Lm & Lr) & _). assert (I : In (go_row m s) (go_mat m)) by (apply nth_In; exact L). split; [apply AD, I|apply Lr, I]. Qed.
  Lemma go_cells_follows draws x : forall s i, (s < n)%nat -> (forall j, In j x -> (j < n)%nat) -> (inbox (go_cells m s x) draws i <-> follows (go_row m) draws i s x).
  Proof.
    induction x as [|s' x IH]; intros s i L Lx; cbn [go_cells inbox follows]; [tauto|]. destruct (grow_dist s L) as [_ E].
    rewrite selected_cell. rewrite E. rewrite IH by (intros; apply Lx; cbn; auto). assert (s' < n)%nat by (apply Lx; left; reflexivity). tauto.
  Qed.
  Lemma go_cells_unit x : forall s, (s < n)%nat -> (forall j, In j x -> (j < n)%nat) -> unit_box (length x) (go_cells m s x).
  Proof.
    induction x as [|s' x IH]; intros s L Lx; cbn [go_cells]; [split; [reflexivity|intros ? []]|]. destruct (IH s') as [E U]; [apply Lx; left; reflexivity|intros; apply Lx; right; assumption|].
    split; [cbn; lia|]. intros ab [<-|J]; [apply cell_unit, grow_dist, L|apply U, J].
  Qed.
  Lemma go_box_unit T x : In x (paths n (S T)) -> unit_box (S T) (go_box m x).
  Proof.
    intros I. apply paths_range in I as [L R]. destruct x as [|s x]; [discriminate|]. cbn [go_box]. destruct (go_cells_unit x s) as [E U]; [apply R; left; reflexivity|intros; apply R; right; assumption|].
    split; [cbn in *; lia|]. intros ab [<-|J]; [apply cell_unit, DI|apply U, J].
  Qed.
  Lemma follows_unique draws : (forall k, unit_draw (draws k)) -> forall x y s i, (s < n)%nat -> length x = length y -> follows (go_row m) draws i s x -> follows (go_row m) draws i s y -> x = y.
  Proof.
    intros UD. induction x as [|a x IH]; intros [|b y] s i L E Fx Fy; try discriminate; [reflexivity|]. destruct Fx as [A Fx], Fy as [B Fy]. destruct (grow_dist s L) as [[N _] Lr].
    assert (a = b) as <- by (apply (selected_unique (go_row m s) (draws i)); [exact N|apply UD|exact A|exact B]). f_equal.
    apply (IH y a (S i)); [destruct A as [A _]; lia|cbn in E; lia|exact Fx|exact Fy].
  Qed.
  Lemma go_volume tr x s : length x = length tr -> (forall j, In j (s :: x) -> (j < n)%nat) -> (forall o, In o tr -> length o = d) ->
    (forall s k, (s < n)%nat -> (k < d)%nat -> 0 < stddev m s k) ->
    path_weight (repeat (matR (go_mat m)) (length tr)) (map (go_density m) tr ++ [fun _ => 1]) (s :: x) = volume (go_cells m s x) * samples_density m d (s :: x) tr.
  Proof.
    revert s x; induction tr as [|o tr IH]; intros s x L Rx Ho Hs; destruct x as [|s' x]; try discriminate.
    - cbn. lra.
    - assert (Ls : (s < n)%nat) by (apply Rx; left; reflexivity).
      cbn [length repeat map app go_cells volume]. change (samples_density m d (s :: s' :: x) (o :: tr)) with (sample_density m d s o * samples_density m d (s' :: x) tr). change (path_weight (matR (go_mat m) :: repeat (matR (go_mat m)) (length tr)) (go_density m o :: map (go_density m) tr ++ [fun _ => 1]) (s :: s' :: x)) with
        (go_density m o s * match map (go_density m) tr ++ [fun _ => 1] with [] => 0 | _ :: _ => matR (go_mat m) s s' * path_weight (repeat (matR (go_mat m)) (length tr)) (map (go_density m) tr ++ [fun _ => 1]) (s' :: x) end).
      replace (match map (go_density m) tr ++ [fun _ => 1] with [] => 0 | _ :: _ => matR (go_mat m) s s' * path_weight (repeat (matR (go_mat m)) (length tr)) (map (go_density m) tr ++ [fun _ => 1]) (s' :: x) end)
        with (matR (go_mat m) s s' * path_weight (repeat (matR (go_mat m)) (length tr)) (map (go_density m) tr ++ [fun _ => 1]) (s' :: x)) by (destruct tr; reflexivity).
      rewrite IH by (try (cbn in L; lia); try (intros; apply Rx; right; assumption); try (intros; apply Ho; right; assumption); assumption).
      rewrite cell_volume. change (vecR (go_row m s) s') with (matR (go_mat m) s s').
      replace (go_density m o s) with (sample_density m d s o); [ring|].
      unfold sample_density, go_density. rewrite (Ho o) by (left; reflexivity). f_equal. apply map_ext_in. intros k I. apply in_seq in I.
      specialize (Hs s k Ls ltac:(lia)). unfold std_density, standardised, normal. set (q := stddev m s k) in *. set (v := nth k o 0 - mean m s k).
      replace (2 * PI * q ^ 2) with ((2 * PI) * q ^ 2) by ring. assert (P : 0 < 2 * PI) by (pose proof PI_RGT_0; lra).
      rewrite (sqrt_mult (2 * PI) (q ^ 2)) by (try lra; apply pow2_ge_0). rewrite sqrt_pow2 by lra.
      replace ((v / q) ^ 2 / 2) with (v ^ 2 / (2 * q ^ 2)) by (field; lra). pose proof (sqrt_lt_R0 _ P). field. lra.
  Qed.
End Law.

Lemma map_seq_nth (f : nat -> R) l d : length l = d -> (map f (seq 0 d) = l <-> forall k, (k < d)%nat -> nth k l 0 = f k).
Proof.
  intros L. split.
  - intros <- k H. rewrite (nth_indep _ 0 (f 0%nat)) by (rewrite map_length, seq_length; exact H). rewrite map_nth, seq_nth by exact H. reflexivity.
  - intros H. apply (nth_ext _ _ 0 0); [rewrite map_length, seq_length; lia|]. intros k Hk. rewrite map_length, seq_length in Hk.
    rewrite (nth_indep _ 0 (f 0%nat)) by (rewrite map_length, seq_length; exact Hk). rewrite map_nth, seq_nth by exact Hk. symmetry. apply H, Hk.
Qed.
Lemma go_emitted_iff (m : gohmm R) d z (tr : list (list R)) : length (go_out m) = go_n m -> (forall r, In r (go_out m) -> length r = d) -> (forall o, In o tr -> length o = d) ->
  forall x s i, length x = length tr -> (forall j, In j (s :: x) -> (j < go_n m)%nat) ->
  (go_emitted m (loc_scale z) i s x = tr <->
   forall t k, (t < length tr)%nat -> (k < d)%nat -> nth k (nth t tr []) 0 = mean m (nth t (s :: x) O) k + stddev m (nth t (s :: x) O) k * z (i + t)%nat k).
Proof.
  intros Lo Ho. induction tr as [|o tr IH]; intros Ht x s i L Rx; destruct x as [|s' x]; try discriminate.
  - cbn. split; [intros _ t k H; lia|reflexivity].
  - assert (Ls : (s < go_n m)%nat) by (apply Rx; left; reflexivity). assert (Lr : length (nth s (go_out m) []) = d) by (apply Ho, nth_In; lia).
    cbn [go_emitted]. rewrite Lr. specialize (IH (fun o I => Ht o (or_intror I)) x s' (S i) ltac:(cbn in L; lia) (fun j I => Rx j (or_intror I))).
    pose proof (map_seq_nth (fun k => loc_scale z i k (nth k (nth s (go_out m) []) (0, 0))) o d (Ht o (or_introl eq_refl))) as M. split.
    + intros E. injection E as E1 E2. pose proof (proj1 M E1) as M1. pose proof (proj1 IH E2) as I1. intros [|t] k Lt Lk.
      * cbn [nth]. rewrite Nat.add_0_r. apply M1, Lk.
      * cbn [nth]. rewrite (I1 t k) by (cbn in Lt; lia). replace (i + S t)%nat with (S i + t)%nat by lia. reflexivity.
    + intros H. f_equal.
      * apply M. intros k Lk. specialize (H 0%nat k ltac:(cbn; lia) Lk). cbn [nth] in H. rewrite Nat.add_0_r in H. exact H.
      * apply IH. intros t k Lt Lk. specialize (H (S t) k ltac:(cbn; lia) Lk). cbn [nth] in H. rewrite H. replace (i + S t)%nat with (S i + t)%nat by lia. reflexivity.
Qed.

Lemma in_paths n x : (forall j, In j x -> (j < n)%nat) -> In x (paths n (length x)).
Proof.
  induction x as [|a x IH]; intros H; [left; reflexivity|]. cbn [length paths]. apply in_flat_map. exists a. split; [apply in_seq; specialize (H a (or_introl eq_refl)); lia|].
  apply in_map, IH. intros j J; apply H; right; exact J.
Qed.

(** Each state path has a box of draws, whose volume is the probability of the
    path; a run returns the trace exactly when the draws are in the box of some
    path and each standard sample is the one that gives the observation in the
    state of the path; the density of the trace that logLikelihood and the
    learning use is the sum, over the paths, of the volume times the density of
    these samples. *)
Theorem C154_gohmm_run_law : forall (m : gohmm R) (d : nat) (tr : list (list R)), wf_gohmm d m -> all_dist (go_mat m) -> is_dist (go_ini m) ->
  (forall s k, (s < go_n m)%nat -> (k < d)%nat -> 0 < stddev m s k) -> (forall o, In o tr -> length o = d) ->
  exists box : list nat -> list (R * R),
    (forall x, In x (paths (go_n m) (S (length tr))) -> unit_box (S (length tr)) (box x)) /\
    (forall x y draws, (forall k, unit_draw (draws k)) -> In x (paths (go_n m) (S (length tr))) -> In y (paths (go_n m) (S (length tr))) -> inbox (box x) draws 0 -> inbox (box y) draws 0 -> x = y) /\
    (forall x, In x (paths (go_n m) (S (length tr))) -> volume (box x) = vecR (go_ini m) (hd O x) * path_weight (repeat (matR (go_mat m)) (length tr)) (repeat (fun _ => 1) (S (length tr))) x) /\
    (forall draws z, (forall k, unit_draw (draws k)) ->
      (go_run m (Z.of_nat (length tr)) (-1) draws (loc_scale z) = Ok tr <->
       exists x, In x (paths (go_n m) (S (length tr))) /\ inbox (box x) draws 0 /\
         forall t k, (t < length tr)%nat -> (k < d)%nat -> z (S t) k = standardised m (nth t x O) k (nth t tr []))) /\
    sumL (paths (go_n m) (S (length tr))) (fun x => volume (box x) * samples_density m d x tr) = go_trace_density_move m tr.
Proof.
  intros m d tr W AD DI Hs Ho. pose proof W as (Sq & Lo & Lor & Li & Ni). exists (go_box m). split; [|split; [|split; [|split]]].
  - intros x I. apply (go_box_unit m d W AD DI _ _ I).
  - intros x y draws UD Ix Iy Bx By. apply paths_range in Ix as [Lx Rx], Iy as [Ly Ry]. destruct x as [|s x]; [discriminate|]. destruct y as [|s' y]; [discriminate|].
    destruct Bx as [Bx1 Bx2], By as [By1 By2]. assert (Ls : (s < go_n m)%nat) by (apply Rx; left; reflexivity). assert (Ls' : (s' < go_n m)%nat) by (apply Ry; left; reflexivity).
    assert (s = s') as <- by (apply (cells_apart (go_ini m) s s' (draws 0%nat)); auto; lia). f_equal.
    apply (go_cells_follows m d W AD) in Bx2; [|exact Ls|intros; apply Rx; right; assumption]. apply (go_cells_follows m d W AD) in By2; [|exact Ls|intros; apply Ry; right; assumption].
    apply (follows_unique m d W AD draws UD x y s 1); auto. cbn in *; lia.
  - intros x Ix. apply paths_range in Ix as [Lx Rx]. destruct x as [|s x]; [discriminate|]. cbn [go_box volume hd]. rewrite cell_volume. f_equal.
    clear Rx Ho. revert s x Lx. induction (length tr) as [|T IH]; intros s x Lx; destruct x as [|s' x]; try discriminate; [cbn; lra|].
    cbn [go_cells volume]. rewrite cell_volume, (IH s' x) by (cbn in *; lia). change (vecR (go_row m s) s') with (matR (go_mat m) s s').
    change (repeat (fun _ : nat => 1) (S (S T))) with ((fun _ : nat => 1) :: (fun _ : nat => 1) :: repeat (fun _ => 1) T). cbn [repeat path_weight]. ring.
  - intros draws z UD. destruct (C23_gohmm_run m (length tr) draws (loc_scale z) Sq Lo Li AD DI UD) as (s & x & Lx & Ss & Fx & ->).
    assert (Ls : (s < go_n m)%nat) by (destruct Ss as [L _]; lia).
    assert (Rx : forall j, In j x -> (j < go_n m)%nat).
    { clear Ss. revert s Ls Fx. generalize 1%nat as i. clear Lx. induction x as [|a x IH]; intros i s Ls Fx j J; [destruct J|]. destruct Fx as [A Fx]. destruct (grow_dist m d W AD s Ls) as [_ Lr].
      assert (La : (a < go_n m)%nat) by (destruct A as [A _]; lia). destruct J as [<-|J]; [exact La|]. exact (IH (S i) a La Fx j J). }
    assert (Rsx : forall j, In j (s :: x) -> (j < go_n m)%nat) by (intros j [<-|J]; auto).
    assert (Ip : In (s :: x) (paths (go_n m) (S (length tr)))) by (rewrite <- Lx; apply (in_paths _ (s :: x)); exact Rsx).
    assert (Bx : inbox (go_box m (s :: x)) draws 0) by (split; [apply selected_cell, Ss|apply (go_cells_follows m d W AD); assumption]).
    assert (E : forall (y : list nat), In y (paths (go_n m) (S (length tr))) -> inbox (go_box m y) draws 0 -> y = s :: x).
    { intros y Iy By. apply paths_range in Iy as [Ly Ry]. destruct y as [|s' y]; [discriminate|]. destruct By as [By1 By2].
      assert (Ls' : (s' < go_n m)%nat) by (apply Ry; left; reflexivity). assert (s' = s) as -> by (apply (selected_unique (go_ini m) (draws 0%nat)); [apply DI|apply UD|apply selected_cell; split; [lia|exact By1]|exact Ss]).
      f_equal. apply (go_cells_follows m d W AD) in By2; [|exact Ls|intros; apply Ry; right; assumption]. apply (follows_unique m d W AD draws UD y x s 1); auto. cbn in *; lia. }
    assert (Q : forall t k, (t < length tr)%nat -> (k < d)%nat -> (nth k (nth t tr []) 0 = mean m (nth t (s :: x) O) k + stddev m (nth t (s :: x) O) k * z (S t) k <-> z (S t) k = standardised m (nth t (s :: x) O) k (nth t tr []))).
    { intros t k Lt Lk. assert (Lst : (nth t (s :: x) O < go_n m)%nat) by (apply Rsx, nth_In; cbn; lia). specialize (Hs _ k Lst Lk). unfold standardised. split; [intros ->; field; lra|intros ->; field; lra]. }
    pose proof (go_emitted_iff m d z tr Lo Lor Ho x s 1 Lx Rsx) as G. split.
    + intros H. injection H as H. exists (s :: x). split; [exact Ip|]. split; [exact Bx|]. intros t k Lt Lk. apply Q; [exact Lt|exact Lk|]. apply (proj1 G H t k Lt Lk).
    + intros (y & Iy & By & Hy). rewrite (E y Iy By) in Hy. f_equal. apply G. intros t k Lt Lk. apply Q; auto.
  - unfold go_trace_density_move, trace_prob. rewrite app_length, map_length. cbn [length]. rewrite Nat.add_1_r. apply sumL_ext. intros x Ix. apply paths_range in Ix as [Lx Rx].
    destruct x as [|s x]; [discriminate|]. cbn [go_box volume hd]. rewrite (go_volume m d tr x s) by (auto; cbn in Lx; lia). rewrite cell_volume. ring.
Qed.
Print Assumptions C154_gohmm_run_law.

(** The last move does not count: it is the density of the trace in the score. *)
Theorem C154_gohmm_density_of_run : forall (m : gohmm R) (d : nat) (tr : list (list R)), wf_gohmm d m -> all_dist (go_mat m) -> tr <> [] ->
  go_trace_density_move m tr = go_trace_density m tr.
Proof.
  intros m d tr W AD NE. unfold go_trace_density_move, go_trace_density. apply trace_prob_move_eq; [exact NE|].
  intros s Ls. destruct (grow_dist m d W AD s Ls) as [[_ S] L]. rewrite rsum_nth, L in S. exact S.
Qed.
Print Assumptions C154_gohmm_density_of_run.
(** Whatever the uniform draws, every trace is returned for some samples. *)
Theorem C154_gohmm_run_all : forall (m : gohmm R) (d : nat) (tr : list (list R)) draws, wf_gohmm d m -> all_dist (go_mat m) -> is_dist (go_ini m) ->
  (forall s k, (s < go_n m)%nat -> (k < d)%nat -> 0 < stddev m s k) -> (forall o, In o tr -> length o = d) -> (forall k, unit_draw (draws k)) ->
  exists z, go_run m (Z.of_nat (length tr)) (-1) draws (loc_scale z) = Ok tr.
Proof.
  intros m d tr draws W AD DI Hs Ho UD. pose proof W as (Sq & Lo & Lor & Li & Ni).
  destruct (C23_gohmm_run m (length tr) draws (loc_scale (fun _ _ => 0)) Sq Lo Li AD DI UD) as (s & x & Lx & Ss & Fx & _).
  assert (Ls : (s < go_n m)%nat) by (destruct Ss as [L _]; lia).
  pose (z := fun t k => standardised m (nth (t - 1) (s :: x) O) k (nth (t - 1) tr [])). exists z.
  destruct (C23_gohmm_run m (length tr) draws (loc_scale z) Sq Lo Li AD DI UD) as (s' & x' & Lx' & Ss' & Fx' & ->).
  assert (s' = s) as -> by (apply (selected_unique (go_ini m) (draws 0%nat)); [apply DI|apply UD|exact Ss'|exact Ss]).
  assert (x' = x) as -> by (apply (follows_unique m d W AD draws UD x' x s 1); auto; lia). f_equal.
  assert (Rx : forall j, In j x -> (j < go_n m)%nat).
  { clear - Fx Ls W AD. revert s Ls Fx. generalize 1%nat as i. induction x as [|a x IH]; intros i s Ls Fx j J; [destruct J|]. destruct Fx as [A Fx]. destruct (grow_dist m d W AD s Ls) as [_ Lr].
    assert (La : (a < go_n m)%nat) by (destruct A as [A _]; lia). destruct J as [<-|J]; [exact La|]. exact (IH (S i) a La Fx j J). }
  assert (Rsx : forall j, In j (s :: x) -> (j < go_n m)%nat) by (intros j [<-|J]; auto).
  apply (go_emitted_iff m d z tr Lo Lor Ho x s 1 Lx Rsx). intros t k Lt Lk. unfold z. replace (1 + t - 1)%nat with t by lia.
  assert (Lst : (nth t (s :: x) O < go_n m)%nat) by (apply Rsx, nth_In; cbn; lia). specialize (Hs _ k Lst Lk). unfold standardised. field. lra.
Qed.
Print Assumptions C154_gohmm_run_all.

(** Two states with means 0 and 3, a trace of two observations. *)
Definition law_go : gohmm R := mkGO [[1/2; 1/2]; [1/4; 3/4]] [[(0, 1)]; [(3, 2)]] [1; 0] EmptyString.
Example C154_instance : wf_gohmm 1 law_go /\ all_dist (go_mat law_go) /\ is_dist (go_ini law_go) /\
  (forall s k, (s < go_n law_go)%nat -> (k < 1)%nat -> 0 < stddev law_go s k) /\ (forall o, In o [[1]; [2]] -> length o = 1%nat) /\
  go_run law_go 2 (-1) (fun i => if (i =? 0)%nat then 1/2 else 3/4) (loc_scale (fun i _ => if (i =? 1)%nat then 1 else -1/2)) = Ok [[1]; [2]].
Proof.
  split; [|split; [|split; [|split; [|split]]]].
  - split; [split; [reflexivity|intros r [<-|[<-|[]]]; reflexivity]|]. split; [reflexivity|]. split; [intros r [<-|[<-|[]]]; reflexivity|]. split; [reflexivity|intros x [<-|[<-|[]]]; lra].
  - intros r [<-|[<-|[]]]; split; try (cbn; lra); intros x [<-|[<-|[]]]; lra.
  - split; [intros x [<-|[<-|[]]]; lra|cbn; lra].
  - intros [|[|s]] [|k] Ls Lk; cbn in *; unfold stddev; cbn; try lra; lia.
  - intros o [<-|[<-|[]]]; reflexivity.
  - unfold go_run, law_go, loc_scale. change (Z.to_nat 2) with 2%nat. change (-1 =? -1)%Z with true. cbv iota.
    assert (S0 : forall p q r, 0 < p -> 0 <= q -> p + q = 1 -> 0 <= r <= p -> resolveRandom [p; q] r = Ok 0%nat).
    { intros p q r P Q E L. apply selected_iff; [intros x [<-|[<-|[]]]; lra|lra|]. split; [cbn; lia|]. cbn. unfold vecR. cbn. split; [lra|]. destruct (Req_dec r 0); [right|left]; lra. }
    assert (S1 : forall p q r, 0 <= p -> 0 < q -> p + q = 1 -> p < r <= 1 -> resolveRandom [p; q] r = Ok 1%nat).
    { intros p q r P Q E L. apply selected_iff; [intros x [<-|[<-|[]]]; lra|lra|]. split; [cbn; lia|]. cbn. unfold vecR. cbn. split; [lra|]. left; lra. }
    cbn [go_ini Nat.eqb]. rewrite S0 by lra. cbn [bind go_run_from go_next]. unfold go_next at 1. cbn [go_mat go_out pyget Z.of_nat]. cbn -[resolveRandom]. rewrite S1 by lra. cbn -[resolveRandom]. unfold go_next. cbn -[resolveRandom]. change (Pos.to_nat 1) with 1%nat. cbn -[resolveRandom]. rewrite S1 by lra. cbn.
    repeat f_equal; lra.
Qed.
