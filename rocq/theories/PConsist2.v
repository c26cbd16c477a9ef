(** C162: an MDP learned from traces of an MDP whose labels are all different, generated
    with the uniform scheduler, is close to it whatever the stopping rule. *)
From Coq Require Import String ZArith Bool Reals List Lra Lia Classical.
From Verif Require Import Num Py SNum LSum MTools LTools MSet SSet LSet MModels MCtor LCtor MRun SRun LRun PRun MBW SExp SBW SLik SPath LPath LLik LLik2 SGibbs LGibbs PLik SLaw PLaw PBest LBWMDP LBWPath PBWMDP SObs LObs PObs PObs2 SExact LExact PExact LExact2 PExact2 PPrism SChance LChance LChance2 LChance3 PChance PConsist.
Import ListNotations.
Local Open Scope R_scope.

(** [x.run(z, UniformScheduler(x.actions))] with the values [d] of random(): one for the
    first state, then two for each step (jajapy/mdp/MDP.py:184-220). *)
Definition mdp_sample (x : mdp R) (z : Z) (d : nat -> R) : res (list string) :=
  match mdp_run x (UniformScheduler (mdp_act x)) tt z (map d (seq 0 (2 * Z.to_nat z + 1))) with Some r => r | None => Err RuntimeError end.
(** Some trace of [t] steps that the MDP can emit takes action number [j] in state [s]. *)
Definition tried_within (x : mdp R) (t s j : nat) : Prop :=
  exists tr, length tr = (2 * t + 1)%nat /\ 0 < mdp_trace_prob x tr /\
    0 < left (nth s (mdp_lab x) EmptyString) (evens tr) (under (nth j (mdp_act x) EmptyString) tr).

Section One.
  Variable x : mdp R.
  Hypothesis W : wf_mdp x.
  Hypothesis AD : forall ra r, In ra (mdp_mat x) -> In r ra -> is_dist r.
  Hypothesis DI : is_dist (mdp_ini x).
  Hypothesis NA : mdp_act x <> [].
  Hypothesis NL : NoDup (mdp_lab x).
  Variable t : nat.
  Definition mdp_outs : list (list string) := flat_map (fun acts => map (fun w => weave w acts) (words (mdp_lab x) (S t))) (words (mdp_act x) t).
  Definition mdp_P (tr : list string) : R := (1 / INR (length (mdp_act x))) ^ t * mdp_trace_prob x tr.
  Lemma weave_length {E} (acts : list E) : forall w, length w = S (length acts) -> length (weave w acts) = (2 * length acts + 1)%nat.
  Proof. induction acts as [|a acts IH]; intros [|l w] L; try discriminate; cbn in *; [reflexivity|]. rewrite IH by lia. lia. Qed.
  Lemma outs_In tr : In tr mdp_outs <-> exists acts w, length acts = t /\ length w = S t /\ (forall a, In a acts -> In a (mdp_act x)) /\ (forall o, In o w -> In o (mdp_lab x)) /\ tr = weave w acts.
  Proof.
    unfold mdp_outs. rewrite in_flat_map. split.
    - intros (acts & I & J). apply in_map_iff in J as (w & <- & J). exists acts, w. split; [apply (words_length (mdp_act x)), I|]. split; [apply (words_length (mdp_lab x)), J|]. split; [exact (words_incl _ _ _ I)|]. split; [exact (words_incl _ _ _ J)|reflexivity].
    - intros (acts & w & L1 & L2 & I1 & I2 & ->). exists acts. split; [rewrite <- L1; apply words_In, I1|]. apply in_map_iff. exists w. split; [reflexivity|]. rewrite <- L2. apply words_In, I2.
  Qed.
  Lemma outs_alt tr : In tr mdp_outs -> length tr = (2 * t + 1)%nat /\ alternating tr.
  Proof.
    intros I. apply outs_In in I as (acts & w & L1 & L2 & _ & _ & ->). subst t. split; [apply weave_length, L2|]. unfold alternating. rewrite weave_length by exact L2. rewrite Nat.add_comm, Nat.odd_add_mul_2. reflexivity.
  Qed.
  Lemma possible_outs tr : length tr = (2 * t + 1)%nat -> 0 < mdp_trace_prob x tr -> In tr mdp_outs.
  Proof.
    intros Lt Pt. assert (Od : Nat.odd (length tr) = true) by (rewrite Lt, Nat.add_comm, Nat.odd_add_mul_2; reflexivity). destruct (weave_back tr (length tr) (le_n _) Od) as [E1 E2].
    assert (Lo : length (odds tr) = t). { pose proof (f_equal (@length string) E1) as Q. rewrite weave_length in Q by exact E2. lia. }
    apply outs_In. exists (odds tr), (evens tr). split; [exact Lo|]. split; [lia|]. pose proof W as (_ & Ll & _). split; [|split; [|exact E1]].
    - intros a Ia. destruct (in_dec String.string_dec a (mdp_act x)) as [|K]; [assumption|]. exfalso. assert (Z : mdp_trace_prob x tr = 0); [|lra]. apply sumL_zero_ext. intros y _. rewrite (pw_action (act_mat x) a); [ring| |exact Ia]. intros; apply act_out, K.
    - intros o Io. destruct (in_dec String.string_dec o (mdp_lab x)) as [|K]; [assumption|]. exfalso. assert (Z : mdp_trace_prob x tr = 0); [|lra]. apply sumL_zero_ext. intros y Iy. pose proof (LPath.paths_range _ _ _ Iy) as Ry. rewrite (pw_label (mdp_lab x) o K (evens tr)); [ring|exact Io|]. intros k Kk. rewrite Ll. apply Ry, Kk.
  Qed.
  Lemma outs_ND : NoDup mdp_outs.
  Proof.
    assert (Ac : NoDup (mdp_act x)) by apply W.
    apply NoDup_flat_map; [apply words_NoDup, Ac| |].
    - intros acts I. apply words_length in I. assert (ND := words_NoDup (mdp_lab x) (S t) NL). assert (Lw : forall w, In w (words (mdp_lab x) (S t)) -> length w = S (length acts)) by (intros w J; rewrite I; apply (words_length _ _ _ J)).
      revert ND Lw. generalize (words (mdp_lab x) (S t)). intros l. induction l as [|w l IH]; intros ND Lw; [constructor|]. inversion ND as [|? ? N1 N2]; subst. cbn [map]. constructor; [|apply IH; [exact N2|intros; apply Lw; right; assumption]].
      intros J. apply in_map_iff in J as (w' & E & J). apply N1. replace w with w'; [exact J|]. rewrite <- (proj1 (weave_evens acts w (Lw w (or_introl eq_refl)))), <- (proj1 (weave_evens acts w' (Lw w' (or_intror J)))), E. reflexivity.
    - intros a b z Ia Ib Ja Jb. apply words_length in Ia, Ib. apply in_map_iff in Ja as (w & <- & Ja), Jb as (w' & E & Jb). apply words_length in Ja, Jb.
      rewrite <- (proj2 (weave_evens a w ltac:(lia))), <- (proj2 (weave_evens b w' ltac:(lia))), E. reflexivity.
  Qed.
  Lemma mdp_law tr : In tr mdp_outs -> chance (2 * t + 1) (fun d => mdp_sample x (Z.of_nat t) d = Ok tr) (mdp_P tr).
  Proof.
    intros I. destruct (outs_alt tr I) as [L _]. destruct (C139_mdp_run_law x t tr W AD DI NA L) as (boxes & U & D & V & H). exists boxes. split; [exact U|]. split; [exact D|]. split; [exact V|].
    intros d Ud. unfold mdp_sample. rewrite Nat2Z.id. set (dr := map d (seq 0 (2 * t + 1))). assert (Ld : length dr = (2 * t + 1)%nat) by (unfold dr; rewrite map_length, seq_length; reflexivity).
    assert (Nth : forall i, (i < 2 * t + 1)%nat -> nth i dr 0 = d i). { intros i Li. unfold dr. rewrite (nth_indep _ 0 (d 0%nat)) by (rewrite map_length, seq_length; exact Li). rewrite map_nth, seq_nth by exact Li. reflexivity. }
    assert (Ib : forall b i, (i + length b <= 2 * t + 1)%nat -> (inbox b (fun i => nth i dr 0) i <-> inbox b d i)).
    { induction b as [|ab b IH]; intros i Lb; cbn [inbox]; [tauto|]. cbn [length] in Lb. rewrite Nth by lia. rewrite IH by lia. tauto. }
    specialize (H dr Ld). transitivity (mdp_run x (UniformScheduler (mdp_act x)) tt (Z.of_nat t) dr = Some (Ok tr)).
    - destruct (mdp_run _ _ _ _ _) as [r|]; split; intros E; try discriminate; congruence.
    - rewrite H by (intros r J; apply in_map_iff in J as (i & <- & _); apply Ud). split; intros (b & J & B); exists b; (split; [exact J|]); apply (Ib b 0%nat); auto; destruct (U b J) as [-> _]; lia.
  Qed.
  Lemma run_from_total k : forall s st draws, (s < mdp_n x)%nat -> length draws = (2 * k)%nat -> (forall r, In r draws -> unit_draw r) ->
    exists acts w, length acts = k /\ length w = S k /\ (forall a, In a acts -> In a (mdp_act x)) /\ (forall o, In o w -> In o (mdp_lab x)) /\
      mdp_run_from x (UniformScheduler (mdp_act x)) k st s draws = Some (Ok (weave w acts)).
  Proof.
    pose proof W as (SH & Ll & ND & _). induction k as [|k IH]; intros s st draws Ls Ld UD.
    - exists [], [nth s (mdp_lab x) EmptyString]. split; [reflexivity|]. split; [reflexivity|]. split; [intros a []|]. split; [intros o [<-|[]]; apply nth_In; lia|].
      cbn [mdp_run_from]. rewrite (at_list_nth _ _ EmptyString) by lia. reflexivity.
    - destruct draws as [|r0 [|r1 draws]]; cbn [length] in Ld; try lia.
      destruct (uniform_dist (mdp_act x) NA) as [D1 E1]. destruct (dist_selects _ r0 D1 (UD r0 (or_introl eq_refl))) as (j & Ej & Sj). apply selected_cell in Sj as [Lj _]. rewrite E1 in Lj.
      destruct (mrow_dist x W AD s j Ls Lj) as [D2 E2]. destruct (dist_selects _ r1 D2 (UD r1 (or_intror (or_introl eq_refl)))) as (c & Ec & Sc). apply selected_cell in Sc as [Lc _]. rewrite E2 in Lc.
      destruct (IH c st draws Lc ltac:(lia) ltac:(intros r I; apply UD; right; right; exact I)) as (acts & w & A1 & A2 & A3 & A4 & E).
      exists (nth j (mdp_act x) EmptyString :: acts), (nth s (mdp_lab x) EmptyString :: w). cbn [length]. split; [lia|]. split; [lia|]. split; [intros a [<-|I]; [apply nth_In, Lj|apply A3, I]|]. split; [intros o [<-|I]; [apply nth_In; lia|apply A4, I]|].
      cbn [mdp_run_from mdp_choose sch_get UniformScheduler]. unfold uniform_get. rewrite Ej. cbn [bind]. rewrite (at_list_nth _ _ EmptyString) by exact Lj.
      replace (memb String.eqb (nth j (mdp_act x) EmptyString) (getActions x s)) with true.
      2:{ symmetry. apply memb_str, getActions_In. exists j. split; [exact Lj|]. split; [reflexivity|]. destruct D2 as [_ ->]. lra. }
      unfold mdp_next. rewrite (index_of_nth String.eqb String.eqb_eq) by assumption. rewrite (at_list_nth (mdp_mat x) s []) by exact Ls. cbn [bind].
      rewrite (at_list_nth _ j []) by (destruct (SH (nth s (mdp_mat x) [])) as [La _]; [apply nth_In; exact Ls|rewrite La; exact Lj]). cbn [bind].
      rewrite Ec. cbn [bind]. rewrite (at_list_nth (mdp_lab x) s EmptyString) by lia. cbn [bind sch_obs UniformScheduler]. rewrite E. reflexivity.
  Qed.
  Lemma mdp_total d : (forall i, unit_draw (d i)) -> exists tr, In tr mdp_outs /\ mdp_sample x (Z.of_nat t) d = Ok tr.
  Proof.
    intros U. pose proof W as (_ & _ & _ & Li & _). unfold mdp_sample. rewrite Nat2Z.id. replace (2 * t + 1)%nat with (S (2 * t)) by lia. cbn [seq map].
    destruct (dist_selects _ (d 0%nat) DI (U 0%nat)) as (c & Ec & Sc). apply selected_cell in Sc as [Lc _]. rewrite Li in Lc. unfold mdp_run. rewrite Ec. rewrite Nat2Z.id.
    destruct (run_from_total t c (sch_reset (UniformScheduler (mdp_act x)) tt) (map d (seq 1 (2 * t))) Lc) as (acts & w & A1 & A2 & A3 & A4 & E); [rewrite map_length, seq_length; reflexivity|intros r I; apply in_map_iff in I as (i & <- & _); apply U|].
    exists (weave w acts). split; [apply outs_In; exists acts, w; auto|]. match goal with |- match ?X with Some _ => _ | None => _ end = _ => replace X with (Some (Ok (weave w acts))); reflexivity end.
  Qed.
  (** *** Moves are, on average, in the proportions of the MDP *)
  Let lab s := nth s (mdp_lab x) EmptyString.
  Let act j := nth j (mdp_act x) EmptyString.
  Lemma mdp_balance s j s' : (s < mdp_n x)%nat -> (j < length (mdp_act x))%nat -> (s' < mdp_n x)%nat ->
    mean mdp_outs mdp_P (fun tr => seen (lab s) (lab s') (evens tr) (under (act j) tr) - prob_of x s j s' * left (lab s) (evens tr) (under (act j) tr)) = 0.
  Proof.
    intros Hs Hj Hs'. pose proof W as (Sh & Ll & NDa & Li & Ni). unfold mean, mdp_P.
    assert (HB : forall s, (s < mdp_n x)%nat -> sumL (mdp_lab x) (fun o => is_label (mdp_lab x) o s) = 1). { intros i Hi. rewrite <- (label_total (mdp_lab x) i) by lia. rewrite nodup_fixed_point by exact NL. reflexivity. }
    assert (RW : forall T, (forall a, In a T -> In a (mdp_act x)) -> Forall (rows1 (mdp_n x)) (map (act_mat x) T)).
    { intros T IT. apply Forall_forall. intros A IA. apply in_map_iff in IA as (a & <- & Ia). intros i Hi. apply IT in Ia. apply (In_nth _ _ EmptyString) in Ia as (q & Lq & <-).
      rewrite (Sum_ext _ _ (tget (mdp_mat x) i q)) by (intros; apply act_nth; assumption). destruct (mrow_dist x W AD i q Hi Lq) as [[_ D2] E2]. rewrite <- D2. rewrite rsum_nth, E2. reflexivity. }
    assert (XE : forall g T, (forall a, In a T -> In a (mdp_act x)) -> length T = t -> sumL (words (mdp_lab x) (S t)) (fun w => mdp_expected x g (weave w T)) = total (mdp_n x) (vecR (mdp_ini x)) (map (act_mat x) T) (map g T)).
    { intros g T IT LT. rewrite (sumL_ext _ _ (ex2 (mdp_n x) (is_label (mdp_lab x)) (vecR (mdp_ini x)) (map (act_mat x) T) (map g T))).
      - rewrite <- LT, <- (map_length (act_mat x) T). apply ex2_words; [exact HB|apply RW, IT|rewrite !map_length; reflexivity].
      - intros w Iw. apply words_length in Iw. destruct (weave_evens T w ltac:(lia)) as [E1 E2]. unfold mdp_expected, ex2. rewrite E1, E2. reflexivity. }
    unfold mdp_outs. rewrite sumL_flat_map. apply sumL_zero_ext. intros T IT. rewrite sumL_map.
    assert (LT : length T = t) by (apply (words_length (mdp_act x)), IT). assert (IT' := words_incl _ _ _ IT).
    rewrite (sumL_ext _ _ (fun w => (1 / INR (length (mdp_act x))) ^ t * (mdp_expected x (fun y => on_move s s' (ind (String.eqb y (act j)))) (weave w T) - prob_of x s j s' * mdp_expected x (fun y => on_leave s (ind (String.eqb y (act j)))) (weave w T)))).
    - rewrite sumL_scal_l, sumL_minus, sumL_scal_l, !XE by assumption. rewrite total_move by (try assumption; apply RW, IT'). unfold act. rewrite act_nth by assumption. change (tget (mdp_mat x) s j s') with (prob_of x s j s'). ring.
    - intros w Iw. apply words_length in Iw. destruct (weave_evens T w ltac:(lia)) as [E1 E2]. unfold mdp_expected, mdp_trace_prob, under. rewrite E1, E2.
      replace (map (fun y => on_move s s' (ind (String.eqb y (act j)))) T) with (map (on_move s s') (map (fun y => if String.eqb y (act j) then 1 else 0) T)) by (rewrite map_map; reflexivity).
      replace (map (fun y => on_leave s (ind (String.eqb y (act j)))) T) with (map (on_leave s) (map (fun y => if String.eqb y (act j) then 1 else 0) T)) by (rewrite map_map; reflexivity).
      rewrite (moves_exact (mdp_n x) (mdp_lab x) Ll NL), (leaves_exact (mdp_n x) (mdp_lab x) Ll NL) by (rewrite ?map_length; auto; lia). unfold lab. ring.
  Qed.
End One.

(** *** Every stopping rule keeps the frequencies of the first round *)
Section Loop.
  Variables (h : mdp R) (p : nat) (set : list (list string * Z)).
  Hypothesis NL : NoDup (mdp_lab h).
  Hypothesis PT : pos_times set.
  Hypothesis AS : alternating_set set.
  Hypothesis NE : set <> [].
  Definition kept (m : mdp R) : Prop := mdp_ok m /\ mdp_rows (fun v => v = 0 \/ v = 1) m /\ same_frame h m /\ forall tr v, In (tr, v) set -> 0 < mdp_trace_prob m tr.
  Definition observed (m : mdp R) : Prop := forall s j s', (s < mdp_n h)%nat -> (j < length (mdp_act h))%nat -> (s' < mdp_n h)%nat ->
    let a := nth s (mdp_lab h) EmptyString in let y := nth j (mdp_act h) EmptyString in let b := nth s' (mdp_lab h) EmptyString in
    mdp_times_left a y set <> 0 -> prob_of m s j s' = mdp_moves_seen a y b set / mdp_times_left a y set.
  Lemma kept_round m : kept m -> exists m' ll, round_MDP p set m = Ok (m', ll) /\ kept m' /\ observed m'.
  Proof.
    intros (O & S01 & F & HP). destruct (round_mdp_succeeds m set p O AS) as (m' & ll & E); [|right; exact HP|].
    { destruct set as [|[tr v] r]; [congruence|]. exists tr, v. split; [left; reflexivity|]. apply (HP tr v). left. reflexivity. }
    exists m', ll. split; [exact E|]. pose proof O as [W N]. destruct (round_mdp_ok m set p m' ll O E PT) as [O' F'].
    destruct F as (F1 & F2 & F3 & F4 & F5). pose proof F' as (G1 & G2 & G3 & G4 & G5). split; [split; [exact O'|split; [|split]]|].
    - intros s j Ls Lj. rewrite G1 in Ls. rewrite G3 in Lj. destruct (mdp_row_rule m set p m' ll O E PT s j Ls Lj) as [R|[R _]]; [rewrite R; apply S01; assumption|right; exact R].
    - repeat split; congruence.
    - destruct (C40_mdp_round_likelihood m m' p set ll W N) as (_ & _ & Q); [intros s j Ls Lj; destruct (S01 s j Ls Lj) as [-> | ->]; lra|exact PT|exact AS|exact E|].
      intros tr v I. apply (Q tr v I), (HP tr v I).
    - intros s j s' Hs Hj Hs' a y b L. rewrite (C149_mdp_round m m' p set ll W N) by (try assumption; rewrite ?F1, ?F2, ?F3; assumption). cbv zeta. rewrite F2, F3. fold a y b. destruct (Req_EM_T _ 0) as [Z|_]; [contradiction|reflexivity].
  Qed.
  Lemma kept_loop eps fuel : forall prev c m, kept m -> (1 <= fuel)%nat \/ observed m -> exists m' c' ll st, bw_loop (round_MDP p set) eps fuel prev c m = Ok (m', c', ll, st) /\ kept m' /\ observed m'.
  Proof.
    induction fuel as [|fuel IH]; intros prev c m K O; cbn [bw_loop].
    - destruct O as [O|O]; [lia|]. eexists _, _, _, _. split; [reflexivity|split; assumption].
    - destruct (kept_round m K) as (m' & ll & E & K' & O'). rewrite E. cbn [bind]. destruct (match prev with None => _ | Some _ => _ end).
      + eexists _, _, _, _. split; [reflexivity|split; assumption].
      + apply IH; [exact K'|right; exact O'].
  Qed.
End Loop.

Theorem C162_mdp_learning_consistent : forall (x h : mdp R) (t : nat),
  wf_mdp x -> (forall ra r, In ra (mdp_mat x) -> In r ra -> is_dist r) -> is_dist (mdp_ini x) -> mdp_act x <> [] -> NoDup (mdp_lab x) ->
  wf_mdp h -> nonneg_mdp h -> mdp_rows (fun v => v = 0 \/ v = 1) h -> mdp_lab h = mdp_lab x -> mdp_act h = mdp_act x ->
  (forall tr, length tr = (2 * t + 1)%nat -> 0 < mdp_trace_prob x tr -> 0 < mdp_trace_prob h tr) ->
  forall eps, 0 < eps -> exists C, forall N, (0 < N)%nat ->
    exists q, chance (N * (2 * t + 1)) (fun d => ~ exists ss vs, generated trace_eqb (2 * t + 1) (mdp_sample x) (Z.of_nat t) N d = Ok (ss, vs) /\
        forall p epsilon max_it, (1 <= max_it)%nat ->
          exists m' c ll stopped, bw_loop (round_MDP p (combine ss vs)) epsilon max_it None 0 h = Ok (m', c, ll, stopped) /\
            forall s j s', (s < mdp_n x)%nat -> (j < length (mdp_act x))%nat -> (s' < mdp_n x)%nat -> tried_within x t s j ->
              Rabs (prob_of m' s j s' - prob_of x s j s') < eps) q /\ q <= C / INR N.
Proof.
  intros x h t W AD DI NA NL Wh Nh Rh Lh Ah AC eps He. set (n := mdp_n x). set (L := mdp_outs x t). set (P := mdp_P x t).
  set (lab := fun s => nth s (mdp_lab x) EmptyString). set (act := fun j => nth j (mdp_act x) EmptyString).
  assert (Hn : mdp_n h = n). { destruct Wh as (_ & L1 & _), W as (_ & L2 & _). rewrite Lh in L1. unfold n. congruence. }
  pose proof (mdp_law x W AD DI NA t) as LW. pose proof (mdp_total x W AD DI NA t) as TT. pose proof (outs_ND x W NL t) as ND. fold L in ND.
  assert (P0 : forall tr, In tr L -> 0 <= P tr) by (intros tr I; apply (outs_nonneg (2 * t + 1) (mdp_sample x) (Z.of_nat t) L P LW tr I)).
  assert (Cp : 0 < (1 / INR (length (mdp_act x))) ^ t). { apply pow_lt. unfold Rdiv. rewrite Rmult_1_l. apply Rinv_0_lt_compat, lt_0_INR. destruct (mdp_act x); [congruence|cbn; lia]. }
  assert (PP : forall tr, 0 < P tr <-> 0 < mdp_trace_prob x tr).
  { intros tr. unfold P, mdp_P. split; intros Q; [|apply Rmult_lt_0_compat; assumption]. apply (Rmult_lt_reg_l ((1 / INR (length (mdp_act x))) ^ t)); [exact Cp|]. rewrite Rmult_0_r. exact Q. }
  set (lf := fun s j tr => left (lab s) (evens tr) (under (act j) tr)). assert (Lf0 : forall s j tr, 0 <= lf s j tr) by (intros; apply left_pos_nonneg; intros c; apply under_nonneg).
  set (E := fun s j => mean L P (lf s j)).
  pose proof (possible_outs x W t) as InL. fold L in InL.
  assert (Epos : forall s j, tried_within x t s j -> 0 < E s j).
  { intros s j (tr & Lt & Pt & Lf). apply (sumL_pos L _ tr); [|apply InL; assumption|apply Rmult_lt_0_compat; [apply PP|]; assumption]. intros y J. apply Rmult_le_pos; [apply P0, J|apply Lf0]. }
  set (F2 := fun s j s' tr => seen (lab s) (lab s') (evens tr) (under (act j) tr) - prob_of x s j s' * lf s j tr).
  set (here := fun sj : nat * nat => if Rlt_dec 0 (E (fst sj) (snd sj)) then true else false).
  set (SJ := filter here (list_prod (seq 0 n) (seq 0 (length (mdp_act x))))).
  set (Fs := flat_map (fun sj => (lf (fst sj) (snd sj), E (fst sj) (snd sj) / 2) :: map (fun s' => (F2 (fst sj) (snd sj) s', eps * E (fst sj) (snd sj) / 2)) (seq 0 n)) SJ).
  assert (He2 : forall s j, In (s, j) SJ -> 0 < E s j). { intros s j I. apply filter_In in I as [_ B]. unfold here in B. cbn [fst snd] in B. destruct (Rlt_dec 0 (E s j)); [assumption|discriminate]. }
  exists (sumL Fs (fun Fe => variance L P (fst Fe) / snd Fe ^ 2)). intros N HN. assert (PN : 0 < INR N) by (apply lt_0_INR; lia).
  set (good := fun set => forall p epsilon max_it, (1 <= max_it)%nat -> exists m' c ll stopped, bw_loop (round_MDP p set) epsilon max_it None 0 h = Ok (m', c, ll, stopped) /\
            forall s j s', (s < mdp_n x)%nat -> (j < length (mdp_act x))%nat -> (s' < mdp_n x)%nat -> tried_within x t s j -> Rabs (prob_of m' s j s' - prob_of x s j s') < eps).
  apply (concentrated_gen (list_eq_dec String.string_dec) (2 * t + 1) (mdp_sample x) (Z.of_nat t) L P ND LW TT Fs N (fun l => ~ good (combine (fst (setFromList trace_eqb l)) (snd (setFromList trace_eqb l))))); [exact HN| | |].
  - intros F e I. apply in_flat_map in I as ([s j] & Is & I). cbn [fst snd] in I. pose proof (He2 s j Is) as Es. destruct I as [[= <- <-]|I]; [lra|]. apply in_map_iff in I as (s' & [= <- <-] & _).
    apply Rmult_lt_0_compat; [apply Rmult_lt_0_compat; assumption|lra].
  - intros l Hl Ll Q. apply NNPP. intros NF. apply Q. clear Q.
    assert (Dev : forall F e, In (F, e) Fs -> Rabs (sumL l F / INR N - mean L P F) < e). { intros F e I. apply Rnot_le_lt. intros G. apply NF. exists F, e. split; assumption. }
    clear NF. rewrite (setFromList_spec trace_eqb trace_eqb_decides). cbn [fst snd]. set (ss := first_occ trace_eqb l). set (vs := map (fun u => Z.of_nat (occ trace_eqb u l)) ss).
    assert (NDs : NoDup ss) by apply first_occ_NoDup, trace_eqb_decides. assert (IN : forall u, In u ss <-> In u l) by (intros u; apply first_occ_In, trace_eqb_decides).
    assert (Tot : forall F, SObs.total F (combine ss vs) = sumL l F).
    { intros F. unfold SObs.total, vs. rewrite <- (sum_occ trace_eqb F ss l trace_eqb_decides NDs) by (intros a J; apply IN, J). clear. induction ss as [|u ss IH]; [reflexivity|]. cbn [map combine]. rewrite !sumL_cons. cbn [fst snd]. rewrite IH. reflexivity. }
    assert (PT : pos_times (combine ss vs)).
    { intros [u v] J. cbn [snd]. apply in_combine_r in J. unfold vs in J. apply in_map_iff in J as (u' & <- & J). apply IN in J. unfold occ.
      assert (In u' (filter (trace_eqb u') l)) by (apply filter_In; split; [exact J|apply trace_eqb_decides; reflexivity]). destruct (filter (trace_eqb u') l); [contradiction|cbn [length]; lia]. }
    assert (AS : alternating_set (combine ss vs)). { intros tr v J. apply in_combine_l, IN, Hl in J as [J _]. apply (outs_alt x t tr J). }
    assert (HP : forall tr v, In (tr, v) (combine ss vs) -> 0 < mdp_trace_prob h tr). { intros tr v J. apply in_combine_l, IN, Hl in J as [J Pt]. apply AC; [apply (outs_alt x t tr J)|apply PP, Pt]. }
    assert (NE : combine ss vs <> []).
    { destruct l as [|u l]; [cbn in Ll; lia|]. assert (J : In u ss) by (apply IN; left; reflexivity). unfold vs. destruct ss; [destruct J|discriminate]. }
    intros p epsilon mx Hmx. destruct (kept_loop h p (combine ss vs) ltac:(rewrite Lh; exact NL) PT AS NE epsilon mx None 0%nat h) as (m' & c & ll & st & El & _ & Ob); [|left; exact Hmx|].
    { split; [split; assumption|]. split; [exact Rh|]. split; [repeat split|exact HP]. }
    exists m', c, ll, st. split; [exact El|]. intros s j s' Hs Hj Hs' LWt. pose proof (Epos s j LWt) as Es.
    assert (Is : In (s, j) SJ). { apply filter_In. split; [apply in_prod; apply in_seq; unfold n; lia|]. unfold here. cbn [fst snd]. destruct (Rlt_dec _ _); [reflexivity|contradiction]. }
    assert (Dl : Rabs (mdp_times_left (lab s) (act j) (combine ss vs) / INR N - E s j) < E s j / 2). { unfold mdp_times_left. rewrite Tot. apply Dev. apply in_flat_map. exists (s, j). split; [exact Is|]. left. reflexivity. }
    assert (Dm : Rabs ((mdp_moves_seen (lab s) (act j) (lab s') (combine ss vs) - prob_of x s j s' * mdp_times_left (lab s) (act j) (combine ss vs)) / INR N) < eps * E s j / 2).
    { assert (M0 : mean L P (F2 s j s') = 0) by exact (mdp_balance x W AD NL t s j s' Hs Hj Hs').
      replace ((mdp_moves_seen (lab s) (act j) (lab s') (combine ss vs) - prob_of x s j s' * mdp_times_left (lab s) (act j) (combine ss vs)) / INR N) with (sumL l (F2 s j s') / INR N - mean L P (F2 s j s')).
      - apply Dev. apply in_flat_map. exists (s, j). split; [exact Is|]. right. apply in_map_iff. exists s'. split; [reflexivity|]. apply in_seq. unfold n. lia.
      - rewrite M0, Rminus_0_r. unfold mdp_moves_seen, mdp_times_left. rewrite !Tot. unfold F2, lf. rewrite sumL_minus, sumL_scal_l. reflexivity. }
    specialize (Ob s j s' ltac:(rewrite Hn; exact Hs) ltac:(rewrite Ah; exact Hj) ltac:(rewrite Hn; exact Hs')). cbv zeta in Ob. rewrite Lh, Ah in Ob. fold (lab s) (lab s') (act j) in Ob.
    set (lv := mdp_times_left (lab s) (act j) (combine ss vs)) in *. set (mv := mdp_moves_seen (lab s) (act j) (lab s') (combine ss vs)) in *. set (pr := prob_of x s j s') in *.
    assert (Lf : INR N * (E s j / 2) < lv).
    { apply Rabs_def2 in Dl as [_ Dl]. assert (G : E s j / 2 < lv / INR N) by lra. apply (Rmult_lt_compat_l (INR N)) in G; [|exact PN]. replace (INR N * (lv / INR N)) with lv in G by (field; lra). exact G. }
    assert (Lv0 : 0 < lv) by (assert (0 < INR N * (E s j / 2)) by (apply Rmult_lt_0_compat; lra); lra).
    rewrite Ob by lra.
    replace (mv / lv - pr) with ((mv - pr * lv) / INR N * (INR N / lv)) by (field; lra). rewrite Rabs_mult. rewrite (Rabs_pos_eq (INR N / lv)) by (apply Rlt_le, Rdiv_lt_0_compat; assumption).
    assert (B : INR N / lv < / (E s j / 2)).
    { apply (Rmult_lt_reg_r (lv * (E s j / 2))); [apply Rmult_lt_0_compat; lra|]. replace (INR N / lv * (lv * (E s j / 2))) with (INR N * (E s j / 2)) by (field; lra). replace (/ (E s j / 2) * (lv * (E s j / 2))) with lv by (field; lra). exact Lf. }
    apply Rle_lt_trans with (Rabs ((mv - pr * lv) / INR N) * / (E s j / 2)); [apply Rmult_le_compat_l; [apply Rabs_pos|lra]|].
    apply Rlt_le_trans with (eps * E s j / 2 * / (E s j / 2)); [apply Rmult_lt_compat_r; [apply Rinv_0_lt_compat; lra|exact Dm]|]. right. field. lra.
  - intros d l U Ll H. pose proof (generated_set trace_eqb trace_eqb_decides (2 * t + 1) _ (Z.of_nat t) l d H) as G. rewrite Ll in G. destruct (setFromList trace_eqb l) as [ss vs]. cbn [fst snd]. apply not_iff_compat. split.
    + intros (ss' & vs' & G' & R). rewrite G in G'. injection G' as <- <-. exact R.
    + intros R. exists ss, vs. split; [exact G|exact R].
Qed.
Print Assumptions C162_mdp_learning_consistent.

(** Non-vacuity: the MDP of C156 is learned from a uniform guess and traces of one step. *)
Definition blind : mdp R := mkMDP [[[1/2; 1/2]; [1/2; 1/2]]; [[1/2; 1/2]; [1/2; 1/2]]] ["x"; "y"]%string ["a"; "b"]%string [1; 0] "e"%string.
Example C162_instance : tried_within xt_mdp 1 0 1 /\ prob_of blind 0 1 1 = 1/2 /\ prob_of xt_mdp 0 1 1 = 1 /\
  forall eps, 0 < eps -> exists C, forall N, (0 < N)%nat ->
    exists q, chance (N * 3) (fun d => ~ exists ss vs, generated trace_eqb 3 (mdp_sample xt_mdp) 1 N d = Ok (ss, vs) /\
        forall p epsilon max_it, (1 <= max_it)%nat ->
          exists m' c ll stopped, bw_loop (round_MDP p (combine ss vs)) epsilon max_it None 0 blind = Ok (m', c, ll, stopped) /\
            forall s j s', (s < 2)%nat -> (j < 2)%nat -> (s' < 2)%nat -> tried_within xt_mdp 1 s j -> Rabs (prob_of m' s j s' - prob_of xt_mdp s j s') < eps) q /\ q <= C / INR N.
Proof.
  destruct C156_mdp_instance as (W & _).
  split; [exists ["x"; "b"; "y"]%string; split; [reflexivity|]; split; [xtd|cbn; lra]|]. split; [reflexivity|]. split; [reflexivity|].
  apply (C162_mdp_learning_consistent xt_mdp blind 1 W).
  - intros ra r [<-|[<-|[]]] [<-|[<-|[]]]; split; try (cbn; lra); intros v [<-|[<-|[]]]; lra.
  - split; [intros v [<-|[<-|[]]]; lra|cbn; lra].
  - discriminate.
  - repeat constructor; cbn; intuition discriminate.
  - unfold wf_mdp, mdp_n; cbn. repeat split; auto; try (intros r [<-|[<-|[]]]; lra).
    + destruct H as [<-|[<-|[]]]; reflexivity.
    + destruct H as [<-|[<-|[]]]; intros r [<-|[<-|[]]]; reflexivity.
    + constructor; [intros [X|[]]; discriminate|]. constructor; [intros []|constructor].
  - intros ra [<-|[<-|[]]] r [<-|[<-|[]]] v [<-|[<-|[]]]; lra.
  - intros s j Ls Lj. destruct s as [|[|?]]; [| |cbn in Ls; lia]; (destruct j as [|[|?]]; [| |cbn in Lj; lia]); unfold row_total; cbn; lra.
  - reflexivity.
  - reflexivity.
  - intros tr L P. pose proof (possible_outs xt_mdp W 1 tr L P) as I. clear L. revert P. unfold mdp_trace_prob, trace_prob, sumL, is_label, act_mat, Sum, sumL, vecR.
    cbn in I. repeat (destruct I as [<-|I]; [cbn; lra|]). destruct I.
Qed.
