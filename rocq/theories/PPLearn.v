(** Theorems about learning the parameters of parametric CTMCs: C107-C110. *)
From Coq Require Import String ZArith Bool Reals List Lia Lra Psatz FunctionalExtensionality.
From Verif Require Import Num Py SNum SPath LSum MSet MModels MCtor MLik MBW MPctmc SPctmc LPctmc LCtor LFB LEM SBW SExp LBW LBWSet LBWMC SLik LLik LEMGen LBWMDP LBWCT LBWPath LLik2 LBWLoop PLik PBWMC PBWCT PBWCTU PPctmc LMM MPLearn SPLearn LPLearn LPLearn2 LPLearn3 LPLearn4 LPLearn5 LPLearn6.
Import ListNotations.
Local Open Scope R_scope.

Definition timed_traces (set : list ((list string * list R) * Z)) : list (ptrace R * Z) := map (fun st => ((fst (fst st), Some (snd (fst st))), snd st)) set.
Definition untimed_traces (set : list (list string * Z)) : list (ptrace R * Z) := map (fun st => ((fst st, None), snd st)) set.

(** ** Plumbing *)
Lemma realises_same (m : pctmc R) c h : realises m c -> realises m h -> exists nm, c = mkCTMC (ct_mat h) (ct_lab h) (ct_ini h) nm.
Proof. intros A B. destruct (realises_unique m c h A B) as (E1 & E2 & E3). exists (ct_name c). destruct c; cbn in *. congruence. Qed.
Lemma sumL_pairs n F : sumL (list_prod (seq 0 n) (seq 0 n)) F = Sum n (fun i => Sum n (fun j => F (i, j))).
Proof. rewrite sumL_prod. reflexivity. Qed.
Lemma tdeg_total fixed (m : pctmc R) y : tdeg m fixed y = total_degree (free_params fixed m) (expr_at m y).
Proof.
  unfold tdeg, total_degree, nsumL. assert (G : forall l, (forall q, In q l -> In q (free_params fixed m)) -> fold_right (fun a k => (adeg m fixed a y + k)%nat) 0%nat l = fold_right (fun p k => (degree p (expr_at m y) + k)%nat) 0%nat l).
  { induction l as [|q l IH]; [reflexivity|]. intros H. cbn [fold_right]. rewrite IH by (intros; apply H; right; assumption). rewrite adeg_free by (apply H; left; reflexivity). reflexivity. }
  apply G. auto.
Qed.
Lemma reestimate_spec fixed (m mk : pctmc R) q (N : nat * nat -> R) (D : nat -> R) (h : ctmc R) v w z : same_shape m mk -> In q (free_params fixed mk) ->
  0 <= z -> w = v * z ->
  (z = 1 /\ sumL (list_prod (seq 0 (pc_n mk)) (seq 0 (pc_n mk))) (fun y => INR (adeg mk fixed q y) * (D (fst y) * mget (ct_mat h) (fst y) (snd y))) = 0 \/
   sumL (list_prod (seq 0 (pc_n mk)) (seq 0 (pc_n mk))) (fun y => INR (adeg mk fixed q y) * (D (fst y) * mget (ct_mat h) (fst y) (snd y) * z ^ tdeg mk fixed y)) =
   sumL (list_prod (seq 0 (pc_n mk)) (seq 0 (pc_n mk))) (fun y => INR (adeg mk fixed q y) * N y)) ->
  reestimated fixed m q (fun i j => N (i, j)) D (rate h) v w.
Proof.
  intros Sh Iq Z0 -> E. exists z. split; [exact Z0|]. split; [reflexivity|]. rewrite !sumL_pairs in E. unfold expected_uses, observed_uses.
  destruct (shape_expr m mk Sh) as (Es & _ & En). rewrite En in E.
  assert (G : forall x, Sum (pc_n m) (fun i => Sum (pc_n m) (fun j => INR (degree q (transition m i j)) * (D i * rate h i j * x ^ total_degree (free_params fixed m) (transition m i j)))) =
                        Sum (pc_n m) (fun i => Sum (pc_n m) (fun j => INR (adeg mk fixed q (i, j)) * (D i * mget (ct_mat h) i j * x ^ tdeg mk fixed (i, j))))).
  { intros x. apply Sum_ext. intros i _. apply Sum_ext. intros j _. rewrite adeg_free by exact Iq. rewrite tdeg_total, Es, (shape_free fixed m mk Sh). reflexivity. }
  destruct E as [[E1 E2]|E].
  - right. split; [exact E1|]. rewrite G. rewrite <- E2. apply Sum_ext. intros i _. apply Sum_ext. intros j _. rewrite pow1. cbn [fst snd]. ring.
  - left. rewrite G. cbn [fst snd] in E. rewrite E. apply Sum_ext. intros i _. apply Sum_ext. intros j _. rewrite adeg_free by exact Iq. rewrite Es. reflexivity.
Qed.

Lemma anchored_live fixed (m mk : pctmc R) h : same_shape m mk -> (forall q, In q fixed -> current mk q = current m q) -> anchored fixed m -> wf_pctmc mk -> valued mk -> hval mk = Ok h -> live h.
Proof.
  intros Sh Fx A W V Hh i Hi. destruct (shape_expr m mk Sh) as (Es & _ & En).
  rewrite (hval_n mk h Hh), En in Hi. destruct (A i Hi) as (j & v & Hj & Hr & P & O).
  pose proof (hval_realises mk h Hh) as Rl. pose proof (realises_unique mk h h Rl Rl) as _.
  assert (En2 : ct_n h = pc_n m) by (rewrite (hval_n mk h Hh); exact En).
  assert (Er : mget (ct_mat h) i j = v).
  { destruct Rl as (_ & _ & _ & _ & G). rewrite En in G. specialize (G i j Hi Hj). destruct G as (rho & G1 & G2), Hr as (rho' & G3 & G4).
    pose proof (Es (i, j)) as E1. unfold expr_at in E1. cbn [fst snd] in E1. change (transition mk i j = transition m i j) in E1. rewrite E1 in *.
    change (mget (ct_mat h) i j) with (matR (ct_mat h) i j). rewrite G2, G4. apply denote_ext. intros x Ox. specialize (G1 x Ox). specialize (G3 x Ox).
    rewrite (Fx x (O x Ox)) in G1. congruence. }
  apply (um_exit mk h Hh W V i j); rewrite ?En2; auto. rewrite Er. lra.
Qed.

(** The invariant along the rounds. *)
Lemma timed_rounds fixed pl set maxroot p (m mk : pctmc R) k : timed_set set -> pos_times set -> solver maxroot -> pinv fixed pl m ->
  after_rounds (round_PCTMC maxroot KTimed false p pl (timed_traces set)) k m mk ->
  pinv fixed pl mk /\ same_shape m mk /\ (forall q, ~ In q (free_params fixed m) -> current mk q = current m q).
Proof.
  intros A B C I R. induction R as [m|k m m1 m2 ll R IH Er]; [split; [exact I|]; split; [apply same_shape_refl|reflexivity]|].
  destruct (IH I) as (I1 & S1 & F1). destruct (timed_step fixed pl set maxroot p m1 m2 ll A B C I1 Er) as (I2 & S2 & F2 & _).
  split; [exact I2|]. split; [apply (same_shape_trans m m1 m2); assumption|]. intros q N. rewrite F2; [apply F1; exact N|]. rewrite (free_shape fixed m m1 S1). exact N.
Qed.
Lemma fixed_not_free fixed (m : pctmc R) q : In q fixed -> ~ In q (free_params fixed m).
Proof. intros I J. apply filter_In in J. destruct J as [_ J]. destruct (in_dec string_dec q fixed); [discriminate|contradiction]. Qed.
Lemma untimed_rounds fixed pl set maxroot p (m mk : pctmc R) k : pos_times set -> solver maxroot -> pinv fixed pl m -> anchored fixed m ->
  after_rounds (round_PCTMC maxroot KGeneric false p pl (untimed_traces set)) k m mk ->
  pinv fixed pl mk /\ same_shape m mk /\ (forall q, ~ In q (free_params fixed m) -> current mk q = current m q) /\ (forall h, hval mk = Ok h -> live h).
Proof.
  intros B C I An R. induction R as [m|k m m1 m2 ll R IH Er].
  { split; [exact I|]. split; [apply same_shape_refl|]. split; [reflexivity|]. intros h Hh. apply (anchored_live fixed m m); auto using same_shape_refl; apply I. }
  destruct (IH I An) as (I1 & S1 & F1 & L1). destruct (untimed_step fixed pl set maxroot p m1 m2 ll B C I1 L1 Er) as (I2 & S2 & F2 & _).
  assert (S3 : same_shape m m2) by (apply (same_shape_trans m m1 m2); assumption).
  assert (F3 : forall q, ~ In q (free_params fixed m) -> current m2 q = current m q) by (intros q N; rewrite F2; [apply F1; exact N|]; rewrite (free_shape fixed m m1 S1); exact N).
  split; [exact I2|]. split; [exact S3|]. split; [exact F3|].
  intros h Hh. apply (anchored_live fixed m m2); auto; try apply I2. intros q Iq. apply F3. apply fixed_not_free. exact Iq.
Qed.

(** ** C107: what a round computes *)

(** Timed traces: expected moves and expected time in the states, given the traces. *)
Theorem C107_pctmc_timed_round : forall (maxroot : list R -> res R) (p : nat) (fixed : list string) (pl : plan R) set (m : pctmc R) (k : nat) (mk m' : pctmc R) (ll : R) (c : ctmc R),
  solver maxroot -> timed_set set -> pos_times set -> wf_pctmc m -> indexed m -> learnable fixed m -> valued m -> sortParameters m fixed = Ok pl ->
  after_rounds (round_PCTMC maxroot KTimed false p pl (timed_traces set)) k m mk ->
  round_PCTMC maxroot KTimed false p pl (timed_traces set) mk = Ok (m', ll) -> realises mk c ->
  ll = set_ll (ct_density c) set /\
  forall q v, In q (free_params fixed m) -> current mk q = Some v -> exists w, current m' q = Some w /\
    reestimated fixed m q (fun i j => set_expected (ct_density c) (ct_expected_moves c i j) set) (fun i => set_expected (ct_density c) (ct_expected_dwell c i) set) (rate c) v w.
Proof.
  intros maxroot p fixed pl set m k mk m' ll c Hs Hset HT Hwf Hidx Hl Hv Hp R Er Rc.
  destruct (timed_rounds fixed pl set maxroot p m mk k Hset HT Hs) as ([W1 I1 L1 V1 P1] & Sh & Fx); auto.
  { constructor; auto. apply sort_plan; assumption. }
  destruct (hval_total mk I1 V1) as [h Hh].
  destruct (timed_round mk fixed pl h set Hh W1 I1 L1 V1 P1 Hset HT maxroot p m' ll Hs Er) as (_ & L & _ & z & Z).
  destruct (realises_same mk c h Rc (hval_realises mk h Hh)) as [nm ->].
  split; [exact L|]. intros q v Iq Ev. rewrite <- (free_shape fixed m mk Sh) in Iq. destruct (Z q Iq) as (Z0 & Zc & Ze).
  assert (Et : total (pc_val mk) q = v) by (unfold total, current, parameterValue in *; rewrite Ev; reflexivity).
  exists (v * z q). rewrite Zc, Et. split; [reflexivity|].
  exact (reestimate_spec fixed m mk q (fun y => set_expected (ct_density h) (ct_expected_moves h (fst y) (snd y)) set) (fun i => set_expected (ct_density h) (ct_expected_dwell h i) set) h v _ (z q) Sh Iq Z0 eq_refl Ze).
Qed.
Print Assumptions C107_pctmc_timed_round.

(** Untimed traces: expected moves and visits in the jump chain; a visit lasts the
    mean time spent in the state. *)
Theorem C107_pctmc_untimed_round : forall (maxroot : list R -> res R) (p : nat) (fixed : list string) (pl : plan R) set (m : pctmc R) (k : nat) (mk m' : pctmc R) (ll : R) (c : ctmc R),
  solver maxroot -> pos_times set -> wf_pctmc m -> indexed m -> learnable fixed m -> valued m -> anchored fixed m -> sortParameters m fixed = Ok pl ->
  after_rounds (round_PCTMC maxroot KGeneric false p pl (untimed_traces set)) k m mk ->
  round_PCTMC maxroot KGeneric false p pl (untimed_traces set) mk = Ok (m', ll) -> realises mk c ->
  let P := mc_trace_prob_move (jump_chain c) in
  ll = set_ll P set /\
  forall q v, In q (free_params fixed m) -> current mk q = Some v -> exists w, current m' q = Some w /\
    reestimated fixed m q (fun i j => set_expected P (mc_expected_moves (jump_chain c) i j) set) (fun i => set_expected P (mc_expected_visits (jump_chain c) i) set / exit_rate c i) (rate c) v w.
Proof.
  intros maxroot p fixed pl set m k mk m' ll c Hs HT Hwf Hidx Hl Hv An Hp R Er Rc P.
  destruct (untimed_rounds fixed pl set maxroot p m mk k HT Hs) as ([W1 I1 L1 V1 P1] & Sh & Fx & _); auto.
  { constructor; auto. apply sort_plan; assumption. }
  destruct (hval_total mk I1 V1) as [h Hh].
  destruct (untimed_round mk fixed pl h set Hh W1 I1 L1 V1 P1 HT maxroot p m' ll Hs Er) as (_ & L & _ & z & Z).
  destruct (realises_same mk c h Rc (hval_realises mk h Hh)) as [nm ->].
  split; [exact L|]. intros q v Iq Ev. rewrite <- (free_shape fixed m mk Sh) in Iq. destruct (Z q Iq) as (Z0 & Zc & Ze).
  assert (Et : total (pc_val mk) q = v) by (unfold total, current, parameterValue in *; rewrite Ev; reflexivity).
  exists (v * z q). rewrite Zc, Et. split; [reflexivity|].
  exact (reestimate_spec fixed m mk q (fun y => set_expected (mc_trace_prob_move (jump_chain h)) (mc_expected_moves (jump_chain h) (fst y) (snd y)) set)
           (fun i => set_expected (mc_trace_prob_move (jump_chain h)) (mc_expected_visits (jump_chain h) i) set / exit_rate h i) h v _ (z q) Sh Iq Z0 eq_refl Ze).
Qed.
Print Assumptions C107_pctmc_untimed_round.

(** The equation has one solution when the parameter has been exposed: the new value is determined. *)
Theorem C107_reestimated_unique : forall (fixed : list string) (m : pctmc R) (q : string) moves dwell r v w w',
  In q (free_params fixed m) ->
  (forall i, (i < pc_n m)%nat -> 0 <= dwell i) -> (forall i j, (i < pc_n m)%nat -> (j < pc_n m)%nat -> 0 <= r i j) ->
  expected_uses fixed m q dwell r 1 <> 0 -> reestimated fixed m q moves dwell r v w -> reestimated fixed m q moves dwell r v w' -> w = w'.
Proof.
  intros fixed m q moves dwell r v w w' Iq HD HR NZ (z & Z0 & -> & Ez) (z' & Z0' & -> & Ez').
  destruct Ez as [Ez|[_ Ez]]; [|contradiction]. destruct Ez' as [Ez'|[_ Ez']]; [|contradiction].
  enough (z = z') by congruence. rewrite <- Ez' in Ez. clear Ez'.
  set (term := fun x i j => INR (degree q (transition m i j)) * (dwell i * r i j * x ^ total_degree (free_params fixed m) (transition m i j))).
  assert (Lt : forall x y, 0 <= x -> x < y -> expected_uses fixed m q dwell r x < expected_uses fixed m q dwell r y).
  { intros x y X0 XY.
    assert (T0 : forall u i j, 0 <= u -> (i < pc_n m)%nat -> (j < pc_n m)%nat -> 0 <= term u i j).
    { intros u i j U Hi Hj. unfold term. apply Rmult_le_pos; [apply pos_INR|]. apply Rmult_le_pos; [apply Rmult_le_pos; auto|apply pow_le; exact U]. }
    assert (TL : forall i j, (i < pc_n m)%nat -> (j < pc_n m)%nat -> term x i j <= term y i j).
    { intros i j Hi Hj. unfold term. apply Rmult_le_compat_l; [apply pos_INR|]. apply Rmult_le_compat_l; [apply Rmult_le_pos; auto|]. apply pow_incr. lra. }
    assert (Ex : exists i j, (i < pc_n m)%nat /\ (j < pc_n m)%nat /\ 0 < term 1 i j).
    { assert (P : 0 < expected_uses fixed m q dwell r 1).
      { assert (0 <= expected_uses fixed m q dwell r 1) by (apply Sum_nonneg; intros i Hi; apply Sum_nonneg; intros j Hj; apply (T0 1 i j); auto; lra). lra. }
      apply Sum_pos_exists in P. destruct P as (i & Hi & P). apply Sum_pos_exists in P. destruct P as (j & Hj & P). exists i, j. auto. }
    destruct Ex as (i & j & Hi & Hj & P). unfold term in P. rewrite pow1, Rmult_1_r in P.
    assert (Dg : (1 <= degree q (transition m i j))%nat) by (destruct (degree q (transition m i j)); [cbn in P; lra|lia]).
    assert (Tg : (1 <= total_degree (free_params fixed m) (transition m i j))%nat).
    { unfold total_degree. revert Iq. generalize (free_params fixed m). induction l as [|q' l IH]; [intros []|]. intros [->|I]; cbn [fold_right]; [lia|]. specialize (IH I). lia. }
    assert (St : term x i j < term y i j).
    { unfold term. rewrite <- !Rmult_assoc. apply Rmult_lt_compat_l; [rewrite Rmult_assoc; exact P|].
      destruct (total_degree (free_params fixed m) (transition m i j)) as [|d]; [lia|]. clear - X0 XY. assert (x ^ d <= y ^ d) by (apply pow_incr; lra). assert (0 <= x ^ d) by (apply pow_le; lra).
      assert (0 < y ^ d) by (apply pow_lt; lra). cbn [pow]. nra. }
    assert (Ss : forall n (f g : nat -> R) k, (forall i, (i < n)%nat -> f i <= g i) -> (k < n)%nat -> f k < g k -> Sum n f < Sum n g).
    { intros n f g k' H K Q. assert (0 < Sum n (fun i => g i - f i)) by (apply (Sum_pos n _ k'); [intros a Ha; specialize (H a Ha); lra|exact K|lra]). rewrite Sum_minus in H0. lra. }
    apply (Ss _ _ _ i); auto.
    - intros a Ha. apply Sum_le. intros b Hb. apply (TL a b); assumption.
    - apply (Ss _ _ _ j); auto. intros b Hb. apply (TL i b); assumption. }
  destruct (Rtotal_order z z') as [L|[E|L]]; [|exact E|]; [specialize (Lt z z' Z0 L)|specialize (Lt z' z Z0' L)]; lra.
Qed.
Print Assumptions C107_reestimated_unique.

(** ** C108: the likelihood never decreases *)
Theorem C108_pctmc_timed_likelihood : forall (maxroot : list R -> res R) (p : nat) (fixed : list string) (pl : plan R) set (m : pctmc R) (k : nat) (mk m' : pctmc R) (ll : R),
  solver maxroot -> timed_set set -> pos_times set -> wf_pctmc m -> indexed m -> learnable fixed m -> valued m -> sortParameters m fixed = Ok pl ->
  after_rounds (round_PCTMC maxroot KTimed false p pl (timed_traces set)) k m mk ->
  round_PCTMC maxroot KTimed false p pl (timed_traces set) mk = Ok (m', ll) ->
  exists c c', realises mk c /\ realises m' c' /\ valid_rates m' (current m') /\
    set_ll (ct_density c) set <= set_ll (ct_density c') set /\
    forall tr t, In (tr, t) set -> (0 < ct_density c tr <-> 0 < ct_density c' tr).
Proof.
  intros maxroot p fixed pl set m k mk m' ll Hs Hset HT Hwf Hidx Hl Hv Hp R Er.
  destruct (timed_rounds fixed pl set maxroot p m mk k Hset HT Hs) as (I1 & Sh & Fx); auto.
  { constructor; auto. apply sort_plan; assumption. }
  destruct (timed_step fixed pl set maxroot p mk m' ll Hset HT Hs I1 Er) as (I2 & _ & _ & h & h' & Hh & Hh' & _ & L & Ps).
  exists h, h'. split; [apply hval_realises; exact Hh|]. split; [apply hval_realises; exact Hh'|]. split; [apply I2|]. auto.
Qed.
Print Assumptions C108_pctmc_timed_likelihood.

Theorem C108_pctmc_untimed_likelihood : forall (maxroot : list R -> res R) (p : nat) (fixed : list string) (pl : plan R) set (m : pctmc R) (k : nat) (mk m' : pctmc R) (ll : R),
  solver maxroot -> pos_times set -> wf_pctmc m -> indexed m -> learnable fixed m -> valued m -> anchored fixed m -> sortParameters m fixed = Ok pl ->
  after_rounds (round_PCTMC maxroot KGeneric false p pl (untimed_traces set)) k m mk ->
  round_PCTMC maxroot KGeneric false p pl (untimed_traces set) mk = Ok (m', ll) ->
  exists c c', realises mk c /\ realises m' c' /\ valid_rates m' (current m') /\
    set_ll (mc_trace_prob_move (jump_chain c)) set <= set_ll (mc_trace_prob_move (jump_chain c')) set /\
    forall tr t, In (tr, t) set -> (0 < mc_trace_prob_move (jump_chain c) tr <-> 0 < mc_trace_prob_move (jump_chain c') tr).
Proof.
  intros maxroot p fixed pl set m k mk m' ll Hs HT Hwf Hidx Hl Hv An Hp R Er.
  destruct (untimed_rounds fixed pl set maxroot p m mk k HT Hs) as (I1 & Sh & Fx & Lv); auto.
  { constructor; auto. apply sort_plan; assumption. }
  destruct (untimed_step fixed pl set maxroot p mk m' ll HT Hs I1 Lv Er) as (I2 & _ & _ & h & h' & Hh & Hh' & _ & L & Ps).
  exists h, h'. split; [apply hval_realises; exact Hh|]. split; [apply hval_realises; exact Hh'|]. split; [apply I2|]. auto.
Qed.
Print Assumptions C108_pctmc_untimed_likelihood.

(** ** C109: fit_parameters as a whole *)
Lemma bw_loop_rounds {M} (round : M -> res (M * R)) eps : forall fuel prev c m m' c' ll b, bw_loop round eps fuel prev c m = Ok (m', c', ll, b) ->
  exists k, after_rounds round k m m'.
Proof.
  assert (G : forall fuel prev c m0 k0 m m' c' ll b, after_rounds round k0 m0 m -> bw_loop round eps fuel prev c m = Ok (m', c', ll, b) -> exists k, after_rounds round k m0 m').
  { induction fuel as [|fuel IH]; intros prev c m0 k0 m m' c' ll b A E; cbn in E.
    - injection E as <- _ _ _. exists k0. exact A.
    - destruct (round m) as [[m1 l1]|] eqn:Er; [|discriminate]. cbn in E. pose proof (ar_round round k0 m0 m m1 l1 A Er) as A1.
      destruct (match prev with None => false | Some p => _ end); [injection E as <- _ _ _; exists (S k0); exact A1|]. apply (IH _ _ _ _ _ _ _ _ _ A1 E). }
  intros. apply (G fuel prev c m 0%nat m m' c' ll b); [apply ar_start|assumption].
Qed.
(** Once the likelihood is bounded, more iterations change nothing. *)
Lemma bw_loop_stable {M} (round : M -> res (M * R)) eps (I : M -> Prop) (L : M -> R) (U : R) : 0 < eps ->
  (forall m, I m -> L m <= U) -> (forall m m' ll, I m -> round m = Ok (m', ll) -> ll = L m /\ I m') ->
  forall N q c m extra, I m -> q <= U -> U - q < INR N * eps -> bw_loop round eps (N + extra) (Some q) c m = bw_loop round eps N (Some q) c m.
Proof.
  intros He HU HI. induction N as [|N IH]; intros q c m extra Im Hq Hf; [cbn in Hf; lra|].
  cbn [Nat.add bw_loop]. destruct (round m) as [[m1 l1]|] eqn:Er; [|reflexivity]. cbn [bind]. destruct (HI m m1 l1 Im Er) as [-> I1].
  destruct (nltb (nsub (L m) q) eps) eqn:E; [reflexivity|]. apply Rltb_false in E. nR. apply IH; auto. rewrite S_INR in Hf. nra.
Qed.
Lemma bw_loop_stable0 {M} (round : M -> res (M * R)) eps (I : M -> Prop) (L : M -> R) (U : R) N m : 0 < eps ->
  (forall m, I m -> L m <= U) -> (forall m m' ll, I m -> round m = Ok (m', ll) -> ll = L m /\ I m') ->
  I m -> U - L m < INR N * eps -> forall max_it, (S N <= max_it)%nat -> bw_loop round eps max_it None 0 m = bw_loop round eps (S N) None 0 m.
Proof.
  intros He HU HI Im HN mx Hm. replace mx with (S N + (mx - S N))%nat by lia. cbn [Nat.add bw_loop]. destruct (round m) as [[m1 l1]|] eqn:Er; [|reflexivity]. cbn [bind].
  destruct (HI m m1 l1 Im Er) as [-> I1]. apply (bw_loop_stable round eps I L U); auto.
Qed.

(** The parameters which are not to be updated. *)
Definition others (m : pctmc R) (to_update : list string) : list string := filter (fun p => negb (memb String.eqb p to_update)) (pc_par m).
Lemma others_free (m m0 : pctmc R) to_update q : pc_par m0 = pc_par m -> In q (free_params (others m to_update) m0) <-> In q (pc_par m) /\ In q to_update.
Proof.
  intros E. unfold free_params. rewrite filter_In, E. split; intros [A B]; split; auto.
  - destruct (in_dec string_dec q (others m to_update)) as [|NI]; [discriminate|]. destruct (in_dec string_dec q to_update) as [|NU]; [assumption|]. exfalso. apply NI.
    unfold others. apply filter_In. split; [exact A|]. destruct (memb String.eqb q to_update) eqn:M; [|reflexivity]. apply (memb_In _ String.eqb_eq) in M. contradiction.
  - destruct (in_dec string_dec q (others m to_update)) as [I|]; [|reflexivity]. apply filter_In in I. destruct I as [_ I].
    apply (memb_In _ String.eqb_eq) in B. rewrite B in I. discriminate.
Qed.
Lemma prune_par alphabet (m : pctmc R) : pc_par (prune alphabet m) = pc_par m.
Proof.
  unfold prune. assert (A : forall f (x : pctmc R), pc_par (remove_unused f alphabet x) = pc_par x).
  { induction f as [|f IH]; intros x; [reflexivity|]. cbn [remove_unused]. destruct (first_unused alphabet (pc_lab x) 0); [|reflexivity]. rewrite IH. reflexivity. }
  assert (B : forall f t (x : pctmc R), pc_par (remove_exprs f t x) = pc_par x).
  { induction f as [|f IH]; intros t x; [reflexivity|]. cbn [remove_exprs]. destruct (t <? length (pc_expr x))%nat; [|reflexivity]. destruct (used_expr x t); rewrite IH; reflexivity. }
  rewrite B, A. reflexivity.
Qed.
Lemma training_timed (l : list ((list string * list R) * Z)) : In "init"%string (alphabet_of (Timed l)) -> training_of (Timed l) = timed_traces l.
Proof. intros I. unfold training_of. apply (memb_In _ String.eqb_eq) in I. rewrite I. reflexivity. Qed.
Lemma training_untimed (l : list (list string * Z)) : In "init"%string (alphabet_of (K := R) (Untimed l)) -> training_of (K := R) (Untimed l) = untimed_traces l.
Proof. intros I. unfold training_of. apply (memb_In _ String.eqb_eq) in I. rewrite I. reflexivity. Qed.

Lemma fit_inv ob maxroot (ts : traces R) (m : pctmc R) to_update eps max_it rnd res m' m0 :
  rnd (prune (alphabet_of ts) m) = Some m0 -> fit_parameters ob maxroot ts m to_update eps max_it rnd = Some (Ok res, m') ->
  exists p pl k, sortParameters m0 (others m to_update) = Ok pl /\ res = map (fun q => (q, current m' q)) to_update /\ (forall q, In q to_update -> In q (pc_par m)) /\
    after_rounds (round_PCTMC maxroot (match ts with Timed _ => KTimed | Untimed _ => ob_kind ob end) false p pl (training_of ts)) k m0 m'.
Proof.
  intros Er E. unfold fit_parameters in E. fold (others m to_update) in E. destruct (negb _) eqn:B in E; [discriminate|]. rewrite Er in E.
  apply negb_false_iff in B. rewrite forallb_forall in B.
  assert (Hu : forall q, In q to_update -> In q (pc_par m)) by (intros q I; apply (memb_In _ String.eqb_eq), B, I).
  destruct (sortParameters m0 (others m to_update)) as [pl|] eqn:Ep; [|discriminate].
  unfold bw_PCTMC in E. cbn [ob_verbose ob_processes ob_kind] in E. destruct (negb (ob_verbose ob)) eqn:V in E; [discriminate|].
  destruct (bw_loop _ eps max_it None 0 m0) as [[[[mf c] l] b]|] eqn:Eb; [|discriminate]. injection E as <- <-.
  destruct (ob_processes ob) as [p|].
  - exists p, pl. destruct (bw_loop_rounds _ _ _ _ _ _ _ _ _ _ Eb) as [k A]. exists k. auto.
  - exists 0%nat, pl, 0%nat. destruct max_it as [|mi]; cbn in Eb; [|discriminate]. injection Eb as <- _ _ _. split; [reflexivity|]. split; [reflexivity|]. split; [exact Hu|apply ar_start].
Qed.

Theorem C109_fit_parameters_timed : forall ob (maxroot : list R -> res R) (l : list ((list string * list R) * Z)) (m m0 m' : pctmc R) (to_update : list string) (eps : R) (max_it : nat) rnd result,
  solver maxroot -> timed_set l -> pos_times l -> In "init"%string (alphabet_of (Timed l)) ->
  rnd (prune (alphabet_of (Timed l)) m) = Some m0 -> same_shape (prune (alphabet_of (Timed l)) m) m0 ->
  wf_pctmc m0 -> indexed m0 -> learnable (others m to_update) m0 -> valued m0 ->
  fit_parameters ob maxroot (Timed l) m to_update eps max_it rnd = Some (Ok result, m') ->
  result = map (fun q => (q, current m' q)) to_update /\ same_shape m0 m' /\ (forall q, ~ In q to_update -> current m' q = current m0 q) /\
  exists c c', realises m0 c /\ realises m' c' /\ set_ll (ct_density c) l <= set_ll (ct_density c') l.
Proof.
  intros ob maxroot l m m0 m' tu eps mx rnd result Hs Hset HT Hi Er Sh W I L V E.
  destruct (fit_inv ob maxroot (Timed l) m tu eps mx rnd result m' m0 Er E) as (p & pl & k & Ep & -> & Hu & A). rewrite training_timed in A by exact Hi.
  assert (Pv : pinv (others m tu) pl m0) by (constructor; auto; apply sort_plan; assumption).
  assert (Epar : pc_par m0 = pc_par m) by (destruct Sh as (_ & _ & _ & _ & -> & _); apply prune_par).
  split; [reflexivity|]. destruct (timed_rounds _ pl l maxroot p m0 m' k Hset HT Hs Pv A) as (_ & S1 & F1). split; [exact S1|]. split.
  - intros q N. apply F1. intros J. apply (others_free m m0 tu q Epar) in J. tauto.
  - destruct (hval_total m0 I V) as [h Hh]. exists h. clear F1 Sh E.
    assert (G : pinv (others m tu) pl m' /\ exists h', hval m' = Ok h' /\ set_ll (ct_density h) l <= set_ll (ct_density h') l).
    { clear S1. revert Er W I L V Epar Pv Hh Ep. induction A as [m0|k m0 m1 m2 ll A IH Ar]; intros Er W I L V Epar Pv Hh Ep; [split; [exact Pv|]; exists h; split; [exact Hh|lra]|].
      destruct IH as (P1 & h1 & H1 & L1); auto. destruct (timed_step _ pl l maxroot p m1 m2 ll Hset HT Hs P1 Ar) as (P2 & _ & _ & x & h2 & Hx & H2 & _ & L2 & _).
      assert (x = h1) by congruence. subst x. split; [exact P2|]. exists h2. split; [exact H2|]. lra. }
    destruct G as (_ & h' & Hh' & Ll). exists h'. split; [apply hval_realises; exact Hh|]. split; [apply hval_realises; exact Hh'|exact Ll].
Qed.
Print Assumptions C109_fit_parameters_timed.

Theorem C109_fit_parameters_untimed : forall ob (maxroot : list R -> res R) (l : list (list string * Z)) (m m0 m' : pctmc R) (to_update : list string) (eps : R) (max_it : nat) rnd result,
  solver maxroot -> pos_times l -> In "init"%string (alphabet_of (K := R) (Untimed l)) -> ob_kind ob = KGeneric ->
  rnd (prune (alphabet_of (K := R) (Untimed l)) m) = Some m0 -> same_shape (prune (alphabet_of (K := R) (Untimed l)) m) m0 ->
  wf_pctmc m0 -> indexed m0 -> learnable (others m to_update) m0 -> valued m0 -> anchored (others m to_update) m0 ->
  fit_parameters ob maxroot (Untimed l) m to_update eps max_it rnd = Some (Ok result, m') ->
  result = map (fun q => (q, current m' q)) to_update /\ same_shape m0 m' /\ (forall q, ~ In q to_update -> current m' q = current m0 q) /\
  exists c c', realises m0 c /\ realises m' c' /\ set_ll (mc_trace_prob_move (jump_chain c)) l <= set_ll (mc_trace_prob_move (jump_chain c')) l.
Proof.
  intros ob maxroot l m m0 m' tu eps mx rnd result Hs HT Hi Hk Er Sh W I L V An E.
  destruct (fit_inv ob maxroot (Untimed l) m tu eps mx rnd result m' m0 Er E) as (p & pl & k & Ep & -> & Hu & A). rewrite training_untimed in A by exact Hi. rewrite Hk in A.
  assert (Pv : pinv (others m tu) pl m0) by (constructor; auto; apply sort_plan; assumption).
  assert (Epar : pc_par m0 = pc_par m) by (destruct Sh as (_ & _ & _ & _ & -> & _); apply prune_par).
  split; [reflexivity|]. destruct (untimed_rounds _ pl l maxroot p m0 m' k HT Hs Pv An A) as (_ & S1 & F1 & _). split; [exact S1|]. split.
  - intros q N. apply F1. intros J. apply (others_free m m0 tu q Epar) in J. tauto.
  - destruct (hval_total m0 I V) as [h Hh]. exists h. clear F1 Sh E.
    assert (G : pinv (others m tu) pl m' /\ exists h', hval m' = Ok h' /\ set_ll (mc_trace_prob_move (jump_chain h)) l <= set_ll (mc_trace_prob_move (jump_chain h')) l).
    { clear S1. revert Er W I L V An Epar Pv Hh Ep. induction A as [m0|k m0 m1 m2 ll A IH Ar]; intros Er W I L V An Epar Pv Hh Ep; [split; [exact Pv|]; exists h; split; [exact Hh|lra]|].
      destruct IH as (P1 & h1 & H1 & L1); auto. destruct (untimed_rounds _ pl l maxroot p m0 m1 k HT Hs Pv An A) as (_ & _ & _ & Lv).
      destruct (untimed_step _ pl l maxroot p m1 m2 ll HT Hs P1 Lv Ar) as (P2 & _ & _ & x & h2 & Hx & H2 & _ & L2 & _).
      assert (x = h1) by congruence. subst x. split; [exact P2|]. exists h2. split; [exact H2|]. lra. }
    destruct G as (_ & h' & Hh' & Ll). exists h'. split; [apply hval_realises; exact Hh|]. split; [apply hval_realises; exact Hh'|exact Ll].
Qed.
Print Assumptions C109_fit_parameters_untimed.

(** ** C110: it stops *)
Theorem C110_fit_parameters_timed_stops : forall ob (maxroot : list R -> res R) (l : list ((list string * list R) * Z)) (m m0 : pctmc R) (to_update : list string) (eps : R) rnd (c : ctmc R) (N : nat),
  solver maxroot -> timed_set l -> pos_dwell l -> pos_times l -> In "init"%string (alphabet_of (Timed l)) -> 0 < eps ->
  rnd (prune (alphabet_of (Timed l)) m) = Some m0 -> wf_pctmc m0 -> indexed m0 -> learnable (others m to_update) m0 -> valued m0 -> rsum (pc_ini m0) <= 1 ->
  realises m0 c -> set_bound l - set_ll (ct_density c) l < INR N * eps ->
  forall max_it, (S N <= max_it)%nat -> fit_parameters ob maxroot (Timed l) m to_update eps max_it rnd = fit_parameters ob maxroot (Timed l) m to_update eps (S N) rnd.
Proof.
  intros ob maxroot l m m0 tu eps rnd c N Hs Hset Hd HT Hi He Er W I L V Hini Rc HN mx Hm.
  unfold fit_parameters. destruct (negb _); [reflexivity|]. rewrite Er. fold (others m tu). destruct (sortParameters m0 (others m tu)) as [pl|] eqn:Ep; [|reflexivity].
  unfold bw_PCTMC. cbn [ob_verbose ob_processes ob_kind]. destruct (negb (ob_verbose ob)); [reflexivity|].
  destruct (ob_processes ob) as [p|]; [|destruct mx; [lia|reflexivity]]. rewrite training_timed by exact Hi.
  destruct (hval_total m0 I V) as [h Hh].
  assert (Pv : pinv (others m tu) pl m0) by (constructor; auto; apply sort_plan; assumption).
  rewrite (bw_loop_stable0 _ eps (fun x => pinv (others m tu) pl x /\ pc_ini x = pc_ini m0) (pll l) (set_bound l) N m0 He); auto.
  - intros x [Px Ei]. unfold pll. destruct (hval_total x (pv_idx _ _ _ Px) (pv_val _ _ _ Px)) as [hx Hx]. rewrite Hx.
    apply set_ll_bound; auto; [split; [apply (hval_wf x); auto; apply Px|apply (hval_nonneg x); auto; apply Px]|].
    destruct (hval_realises x hx Hx) as (_ & -> & _). rewrite Ei. exact Hini.
  - intros x x' ll [Px Ei] Ex. destruct (timed_step _ pl l maxroot p x x' ll Hset HT Hs Px Ex) as (Px' & Sx & _ & hx & hx' & Hx & _ & -> & _).
    unfold pll. rewrite Hx. split; [reflexivity|]. split; [exact Px'|]. destruct Sx as (_ & _ & _ & _ & _ & -> & _). exact Ei.
  - unfold pll. rewrite Hh. rewrite (realises_density m0 h c); auto using hval_realises.
Qed.
Print Assumptions C110_fit_parameters_timed_stops.

Theorem C110_fit_parameters_untimed_stops : forall ob (maxroot : list R -> res R) (l : list (list string * Z)) (m m0 : pctmc R) (to_update : list string) (eps : R) rnd (c : ctmc R) (N : nat),
  solver maxroot -> pos_times l -> In "init"%string (alphabet_of (K := R) (Untimed l)) -> ob_kind ob = KGeneric -> 0 < eps ->
  rnd (prune (alphabet_of (K := R) (Untimed l)) m) = Some m0 -> wf_pctmc m0 -> indexed m0 -> learnable (others m to_update) m0 -> valued m0 ->
  anchored (others m to_update) m0 -> rsum (pc_ini m0) <= 1 ->
  realises m0 c -> - set_ll (mc_trace_prob_move (jump_chain c)) l < INR N * eps ->
  forall max_it, (S N <= max_it)%nat -> fit_parameters ob maxroot (Untimed l) m to_update eps max_it rnd = fit_parameters ob maxroot (Untimed l) m to_update eps (S N) rnd.
Proof.
  intros ob maxroot l m m0 tu eps rnd c N Hs HT Hi Hk He Er W I L V An Hini Rc HN mx Hm.
  unfold fit_parameters. destruct (negb _); [reflexivity|]. rewrite Er. fold (others m tu). destruct (sortParameters m0 (others m tu)) as [pl|] eqn:Ep; [|reflexivity].
  unfold bw_PCTMC. cbn [ob_verbose ob_processes ob_kind]. destruct (negb (ob_verbose ob)); [reflexivity|].
  destruct (ob_processes ob) as [p|]; [|destruct mx; [lia|reflexivity]]. rewrite training_untimed by exact Hi. rewrite Hk.
  destruct (hval_total m0 I V) as [h Hh].
  assert (Pv : pinv (others m tu) pl m0) by (constructor; auto; apply sort_plan; assumption).
  set (L0 := fun x : pctmc R => match hval x with Ok h => set_ll (mc_trace_prob_move (jump_chain h)) l | Err _ => 0 end).
  rewrite (bw_loop_stable0 _ eps (fun x => pinv (others m tu) pl x /\ pc_ini x = pc_ini m0 /\ forall hx, hval x = Ok hx -> live hx /\ exists k, after_rounds (round_PCTMC maxroot KGeneric false p pl (untimed_traces l)) k m0 x) L0 0 N m0 He); auto.
  - intros x (Px & Ei & Lx). unfold L0. destruct (hval_total x (pv_idx _ _ _ Px) (pv_val _ _ _ Px)) as [hx Hx]. rewrite Hx.
    assert (Wx : wf_ctmc hx) by (apply (hval_wf x); auto; apply Px). assert (Nx : nonneg_mat (ct_mat hx)) by (apply (hval_nonneg x); auto; apply Px).
    apply set_ll_nonpos; [|exact HT]. intros tr t _. apply mc_move_le1; [apply jc_wf; exact Wx| |].
    + split; [apply jc_nonneg; exact Nx|]. intros r Ir. rewrite (jc_rows hx Wx (proj1 (Lx hx Hx)) r Ir). lra.
    + destruct (hval_realises x hx Hx) as (_ & Eh & _). cbn [jump_chain mc_ini]. rewrite Eh, Ei. exact Hini.
  - intros x x' ll (Px & Ei & Lx) Ex.
    destruct (hval_total x (pv_idx _ _ _ Px) (pv_val _ _ _ Px)) as [hx Hx]. destruct (Lx hx Hx) as [_ [k Ak]].
    destruct (untimed_step _ pl l maxroot p x x' ll HT Hs Px (fun h E => proj1 (Lx h E)) Ex) as (Px' & Sx & _ & y & hx' & Hy & _ & -> & _).
    unfold L0. rewrite Hy. split; [reflexivity|]. split; [exact Px'|]. split; [destruct Sx as (_ & _ & _ & _ & _ & -> & _); exact Ei|].
    intros hz Hz. assert (A' : after_rounds (round_PCTMC maxroot KGeneric false p pl (untimed_traces l)) (S k) m0 x') by (eapply ar_round; eauto).
    destruct (untimed_rounds _ pl l maxroot p m0 x' (S k) HT Hs Pv An A') as (_ & _ & _ & Lv). split; [apply Lv; exact Hz|]. exists (S k). exact A'.
  - split; [exact Pv|]. split; [reflexivity|]. intros hx Hx. split; [|exists 0%nat; apply ar_start].
    apply (anchored_live (others m tu) m0 m0 hx); auto using same_shape_refl.
  - unfold L0. rewrite Hh. destruct (realises_same m0 c h Rc (hval_realises m0 h Hh)) as [nm ->]. change (- set_ll (mc_trace_prob_move (jump_chain h)) l < INR N * eps) in HN. lra.
Qed.
Print Assumptions C110_fit_parameters_untimed_stops.
