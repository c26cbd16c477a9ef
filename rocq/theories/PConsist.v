(** C161: learning from traces generated by a chain whose labels are all different
    approaches that chain. *)
From Coq Require Import String ZArith Bool Reals List Lra Lia Classical.
From Verif Require Import Num Py SNum LSum MSet SSet LSet MModels MRun SRun LRun MBW SExp SBW SLik SPath LLik2 SGibbs LGibbs PLik PRun SLaw PLaw PBest SLimit PLimit SObs LObs PObs PBWMC LExact PExact PGibbs SChance LChance LChance2 LChance3 PChance.
Import ListNotations.
Local Open Scope R_scope.

(** Some trace of T + 1 labels that the chain can emit leaves the state. *)
Definition left_within (x : mc R) (T s : nat) : Prop :=
  exists tr, length tr = S T /\ 0 < mc_trace_prob x tr /\ 0 < left (nth s (mc_lab x) EmptyString) tr (ones tr).

(** *** The set of the emitted traces *)
Lemma generated_set {A} (eqb : A -> A -> bool) (D : decides_eq eqb) k run size l d : emits k run size l d -> generated eqb k run size (length l) d = Ok (setFromList eqb l).
Proof.
  intros H. rewrite emits_nth in H. destruct l as [|a0 l0] eqn:El; [reflexivity|]. rewrite <- El in *. clear l0 El.
  assert (M : map (fun i => nth i l a0) (seq 0 (length l)) = l).
  { clear. induction l as [|b l IH]; [reflexivity|]. cbn [length seq map nth]. f_equal. rewrite <- seq_shift, map_map. exact IH. }
  unfold generated, gen_lists. rewrite Nat2Z.id. rewrite (gen_loop_ok eqb D _ (fun i => nth i l a0) (fun _ => size)) with (acc := ([], [])).
  - rewrite M. reflexivity.
  - reflexivity.
  - intros j prev L. reflexivity.
  - intros j L. apply H. apply nth_error_nth'. lia.
Qed.

(** *** Several averages at once *)
Lemma concentrated_all x T size k run (Sx : sampled x T size k run) (Px : proper x) alph (Na : NoDup alph) (Ha : forall o, In o (symbols x) -> In o alph) (Fs : list ((list string -> R) * R)) N
    (Q : list (list string) -> Prop) (Ev : (nat -> R) -> Prop) : (0 < N)%nat -> (forall F eps, In (F, eps) Fs -> 0 < eps) ->
  (forall l, (forall tr, In tr l -> length tr = S T /\ 0 < law x tr) -> length l = N -> Q l -> exists F eps, In (F, eps) Fs /\ eps <= Rabs (sumL l F / INR N - mean (words alph (S T)) (law x) F)) ->
  (forall d l, (forall i, unit_draw (d i)) -> length l = N -> emits k run size l d -> (Ev d <-> Q l)) ->
  exists q, chance (N * k) Ev q /\ q <= sumL Fs (fun Fe => variance (words alph (S T)) (law x) (fst Fe) / snd Fe ^ 2) / INR N.
Proof.
  intros HN He Hb HE. apply (concentrated_gen (list_eq_dec String.string_dec) k run size (words alph (S T)) (law x) (words_NoDup _ _ Na) (outs_law x T size k run Sx Px alph) (outs_total x T size k run Sx Px alph Na Ha) Fs N Q Ev HN He); [|exact HE].
  intros l Hl. apply Hb. intros tr I. destruct (Hl tr I) as [J P]. split; [apply (words_length alph), J|exact P].
Qed.

(** *** Moves out of a state are, on average, in the proportions of the chain *)
Section Balance.
  Variable x : mc R.
  Hypothesis W : wf_mc x.
  Hypothesis St : stochastic (mc_mat x).
  Hypothesis ND : NoDup (mc_lab x).
  Notation lab s := (nth s (mc_lab x) EmptyString).
  Let D : forall r, In r (mc_mat x) -> is_dist r := stochastic_dist _ St.
  Lemma balance T s s' : (s < mc_n x)%nat -> (s' < mc_n x)%nat ->
    sumL (words (mc_lab x) (S T)) (fun tr => mc_trace_prob x tr * (seen (lab s) (lab s') tr (ones tr) - matR (mc_mat x) s s' * left (lab s) tr (ones tr))) = 0.
  Proof.
    intros Hs Hs'. pose proof W as (Sqm & Lo & Li & Ni).
    assert (HA : forall i, (i < mc_n x)%nat -> Sum (mc_n x) (matR (mc_mat x) i) = 1) by (apply row_sums; [exact Sqm|apply St]).
    assert (HB : forall i, (i < mc_n x)%nat -> sumL (mc_lab x) (fun o => is_label (mc_lab x) o i) = 1). { intros i Hi. rewrite <- (label_total (mc_lab x) i) by lia. rewrite nodup_fixed_point by exact ND. reflexivity. }
    pose proof (ex_words (mc_n x) (matR (mc_mat x)) (is_label (mc_lab x)) (mc_lab x) HA HB (S T)) as X.
    assert (E1 : sumL (words (mc_lab x) (S T)) (mc_expected_moves x s s') = visits (mc_n x) (matR (mc_mat x)) (S T) (vecR (mc_ini x)) s * matR (mc_mat x) s s').
    { transitivity (sumL (words (mc_lab x) (S T)) (ex (mc_n x) (matR (mc_mat x)) (is_label (mc_lab x)) (vecR (mc_ini x)) (fun _ => on_move s s' 1))); [reflexivity|]. rewrite X.
      rewrite (Sum_ext _ _ (fun i => if Nat.eqb i s then visits (mc_n x) (matR (mc_mat x)) (S T) (vecR (mc_ini x)) i * matR (mc_mat x) i s' else 0)).
      - rewrite Sum_indicator_in by exact Hs. reflexivity.
      - intros i Hi. unfold on_move. destruct (Nat.eqb_spec i s) as [->|N].
        + f_equal. rewrite (Sum_ext _ _ (fun j => if Nat.eqb j s' then matR (mc_mat x) s j else 0)); [rewrite Sum_indicator_in by exact Hs'; reflexivity|].
          intros j Hj. destruct (Nat.eqb j s'); [rewrite sumL_scal_r, HB by exact Hs; ring|rewrite sumL_zero_ext by (intros; ring); ring].
        + rewrite Sum_zero_ext; [ring|]. intros j Hj. rewrite sumL_zero_ext by (intros; ring). ring. }
    assert (E2 : sumL (words (mc_lab x) (S T)) (mc_expected_visits x s) = visits (mc_n x) (matR (mc_mat x)) (S T) (vecR (mc_ini x)) s).
    { transitivity (sumL (words (mc_lab x) (S T)) (ex (mc_n x) (matR (mc_mat x)) (is_label (mc_lab x)) (vecR (mc_ini x)) (fun _ => on_leave s 1))); [reflexivity|]. rewrite X.
      rewrite (Sum_ext _ _ (fun i => if Nat.eqb i s then visits (mc_n x) (matR (mc_mat x)) (S T) (vecR (mc_ini x)) i else 0)).
      - rewrite Sum_indicator_in by exact Hs. reflexivity.
      - intros i Hi. unfold on_leave. destruct (Nat.eqb_spec i s) as [->|N].
        + rewrite (Sum_ext _ _ (matR (mc_mat x) s)); [rewrite HA by exact Hs; ring|]. intros j Hj. rewrite sumL_scal_r, HB by exact Hs. ring.
        + rewrite Sum_zero_ext; [ring|]. intros j Hj. rewrite sumL_zero_ext by (intros; ring). ring. }
    rewrite (sumL_ext _ _ (fun tr => mc_expected_moves x s s' tr - matR (mc_mat x) s s' * mc_expected_visits x s tr)).
    - rewrite sumL_minus, sumL_scal_l, E1, E2. ring.
    - intros tr I. rewrite (mco_moves x W D ND tr s s' Hs Hs'), (mco_visits x W ND tr s Hs). rewrite (move_trace x tr W (proj2 St)); [ring|]. intros ->. apply words_length in I. discriminate.
  Qed.
End Balance.

Lemma some_power eps (qs : list R) : 0 < eps -> (forall q, In q qs -> 0 <= q < 1) -> exists K, forall k q, (K <= k)%nat -> In q qs -> q ^ k < eps.
Proof.
  intros He. induction qs as [|q qs IH]; intros H; [exists 0%nat; intros k q _ []|]. destruct IH as (K & IH); [intros; apply H; right; assumption|].
  destruct (cv_pow q (H q (or_introl eq_refl)) eps He) as (K' & H'). exists (Nat.max K K'). intros k q0 Lk [<-|I]; [|apply IH; [lia|exact I]].
  specialize (H' k ltac:(lia)). unfold R_dist in H'. rewrite Rminus_0_r in H'. pose proof (Rle_abs (q ^ k)). lra.
Qed.

Theorem C161_learning_converges : forall (x h : mc R) (T : nat), proper (FromMC x) -> NoDup (mc_lab x) ->
  wf_mc h -> (forall r, In r (mc_mat h) -> is_dist r) -> mc_lab h = mc_lab x ->
  (forall tr, length tr = S T -> 0 < mc_trace_prob x tr -> 0 < mc_trace_prob h tr) ->
  forall eps, 0 < eps -> exists C K, forall N p, (0 < N)%nat ->
    exists q, chance (N * S T) (fun d => ~ exists ss vs it, generated trace_eqb (S T) (fun z => MRun.mc_run x z (-1)) (Z.of_nat T) N d = Ok (ss, vs) /\
        it 0%nat = h /\ endless (round_MC p (combine ss vs)) it /\
        forall k s s', (K <= k)%nat -> (s < mc_n x)%nat -> (s' < mc_n x)%nat -> left_within x T s ->
          Rabs (matR (mc_mat (it k)) s s' - matR (mc_mat x) s s') < eps) q /\ q <= C / INR N.
Proof.
  intros x h T Px ND Wh Dh Lh AC eps He. pose proof Px as (W & St & Si). set (n := mc_n x). set (L := words (mc_lab x) (S T)). set (lab := fun s => nth s (mc_lab x) EmptyString).
  assert (Nh : mc_n h = n). { destruct Wh as (_ & L1 & _), W as (_ & L2 & _). rewrite Lh in L1. unfold n. congruence. }
  set (E := fun s => mean L (law (FromMC x)) (fun tr => left (lab s) tr (ones tr))).
  assert (P0 : forall tr, In tr L -> 0 <= mc_trace_prob x tr). { intros tr I. apply (law_nonneg (FromMC x)); [exact Px|]. intros ->. apply words_length in I. discriminate. }
  assert (Epos : forall s, left_within x T s -> 0 < E s).
  { intros s (tr & Lt & Pt & Lf). unfold E, mean. assert (I : In tr L) by (apply (possible_word (FromMC x) T Px (mc_lab x) ND); auto).
    apply (sumL_pos L _ tr); [|exact I|apply Rmult_lt_0_compat; assumption]. intros t J. apply Rmult_le_pos; [apply P0, J|apply left_nonneg]. }
  set (F2 := fun s s' tr => seen (lab s) (lab s') tr (ones tr) - matR (mc_mat x) s s' * left (lab s) tr (ones tr)).
  set (here := fun s => if Rlt_dec 0 (E s) then true else false).
  set (Fs := flat_map (fun s => ((fun tr => left (lab s) tr (ones tr)), E s / 2) :: map (fun s' => (F2 s s', eps * E s / 4)) (seq 0 n)) (filter here (seq 0 n))).
  assert (He2 : forall s, In s (filter here (seq 0 n)) -> 0 < E s /\ (s < n)%nat).
  { intros s I. apply filter_In in I as [I B]. apply in_seq in I. unfold here in B. destruct (Rlt_dec 0 (E s)); [split; [assumption|lia]|discriminate]. }
  destruct (some_power (eps / 2) (map (fun s => / (1 + E s / 2)) (filter here (seq 0 n)))) as (K & HK); [lra| |].
  { intros q I. apply in_map_iff in I as (s & <- & I). destruct (He2 s I) as [Es _]. split; [apply Rlt_le, Rinv_0_lt_compat; lra|]. rewrite <- Rinv_1. apply Rinv_lt_contravar; lra. }
  exists (sumL Fs (fun Fe => variance L (law (FromMC x)) (fst Fe) / snd Fe ^ 2)), K. intros N p HN. assert (PN : 0 < INR N) by (apply lt_0_INR; lia).
  set (good := fun set it => it 0%nat = h /\ endless (round_MC p set) it /\
        forall k s s', (K <= k)%nat -> (s < mc_n x)%nat -> (s' < mc_n x)%nat -> left_within x T s -> Rabs (matR (mc_mat (it k)) s s' - matR (mc_mat x) s s') < eps).
  apply (concentrated_all (FromMC x) T (Z.of_nat T) (S T) _ (sampled_mc x T) Px (mc_lab x) ND (fun o I => I) Fs N
    (fun l => ~ exists it, good (combine (fst (setFromList trace_eqb l)) (snd (setFromList trace_eqb l))) it)); [exact HN| | |].
  - intros F e I. apply in_flat_map in I as (s & Is & I). destruct (He2 s Is) as [Es _]. destruct I as [[= <- <-]|I]; [lra|]. apply in_map_iff in I as (s' & [= <- <-] & _).
    apply Rmult_lt_0_compat; [apply Rmult_lt_0_compat; assumption|lra].
  - intros l Hl Ll Q. apply NNPP. intros NF. apply Q. clear Q.
    assert (Dev : forall F e, In (F, e) Fs -> Rabs (sumL l F / INR N - mean L (law (FromMC x)) F) < e). { intros F e I. apply Rnot_le_lt. intros G. apply NF. exists F, e. split; assumption. }
    clear NF. rewrite (setFromList_spec trace_eqb trace_eqb_decides). cbn [fst snd]. set (ss := first_occ trace_eqb l). set (vs := map (fun t => Z.of_nat (occ trace_eqb t l)) ss).
    assert (NDs : NoDup ss) by apply first_occ_NoDup, trace_eqb_decides. assert (IN : forall t, In t ss <-> In t l) by (intros t; apply first_occ_In, trace_eqb_decides).
    assert (Tot : forall F, total F (combine ss vs) = sumL l F).
    { intros F. unfold total, vs. rewrite <- (sum_occ trace_eqb F ss l trace_eqb_decides NDs) by (intros a J; apply IN, J). clear. induction ss as [|t ss IH]; [reflexivity|]. cbn [map combine]. rewrite !sumL_cons. cbn [fst snd]. rewrite IH. reflexivity. }
    assert (PT : pos_times (combine ss vs)).
    { intros [t v] J. cbn [snd]. apply in_combine_r in J. unfold vs in J. apply in_map_iff in J as (t' & <- & J). apply IN in J. unfold occ.
      assert (In t' (filter (trace_eqb t') l)) by (apply filter_In; split; [exact J|apply trace_eqb_decides; reflexivity]). destruct (filter (trace_eqb t') l); [contradiction|cbn [length]; lia]. }
    assert (HPm : forall tr t, In (tr, t) (combine ss vs) -> 0 < mc_trace_prob_move h tr).
    { intros tr t J. apply in_combine_l, IN in J. destruct (Hl tr J) as [L1 L2]. rewrite (move_trace h tr Wh); [apply AC; assumption|intros r Ir; apply (Dh r Ir)|intros ->; discriminate]. }
    destruct (C148_mc_endless h p (combine ss vs) Wh) as (it & Z & HE); [split; [intros r I; apply (Dh r I)|intros r I; right; apply (Dh r I)]|exact PT| |right; exact HPm|].
    { destruct l as [|t l]; [cbn in Ll; lia|]. assert (J : In t ss) by (apply IN; left; reflexivity). destruct (In_nth _ _ [] J) as (i & Li & Ei).
      exists t, (nth i vs 0%Z). assert (M : In (t, nth i vs 0%Z) (combine ss vs)). { rewrite <- Ei, <- combine_nth by (unfold vs; rewrite map_length; reflexivity). apply nth_In. rewrite combine_length. unfold vs. rewrite map_length. lia. }
      split; [exact M|exact (HPm _ _ M)]. }
    exists it. split; [exact Z|]. split; [exact HE|]. intros k s s' Lk Hs Hs' LW. pose proof (Epos s LW) as Es.
    assert (Is : In s (filter here (seq 0 n))). { apply filter_In. split; [apply in_seq; unfold n; lia|]. unfold here. destruct (Rlt_dec _ _); [reflexivity|contradiction]. }
    assert (Dl : Rabs (times_left (lab s) (combine ss vs) / INR N - E s) < E s / 2). { unfold times_left. rewrite Tot. apply Dev. apply in_flat_map. exists s. split; [exact Is|]. left. reflexivity. }
    assert (Dm : Rabs ((moves_seen (lab s) (lab s') (combine ss vs) - matR (mc_mat x) s s' * times_left (lab s) (combine ss vs)) / INR N) < eps * E s / 4).
    { assert (M0 : mean L (law (FromMC x)) (F2 s s') = 0) by exact (balance x W St ND T s s' Hs Hs').
      replace ((moves_seen (lab s) (lab s') (combine ss vs) - matR (mc_mat x) s s' * times_left (lab s) (combine ss vs)) / INR N) with (sumL l (F2 s s') / INR N - mean L (law (FromMC x)) (F2 s s')).
      - apply Dev. apply in_flat_map. exists s. split; [exact Is|]. right. apply in_map_iff. exists s'. split; [reflexivity|]. apply in_seq. unfold n. lia.
      - rewrite M0, Rminus_0_r. unfold moves_seen, times_left. rewrite !Tot. unfold F2. rewrite sumL_minus, sumL_scal_l. reflexivity. }
    set (lf := times_left (lab s) (combine ss vs)) in *. set (mv := moves_seen (lab s) (lab s') (combine ss vs)) in *. set (pr := matR (mc_mat x) s s') in *.
    assert (Lf : INR N * (E s / 2) < lf).
    { apply Rabs_def2 in Dl as [_ Dl]. assert (E s / 2 < lf / INR N) by lra. apply (Rmult_lt_compat_l (INR N)) in H; [|exact PN]. replace (INR N * (lf / INR N)) with lf in H by (field; lra). exact H. }
    assert (Lf0 : 0 < lf) by (assert (0 < INR N * (E s / 2)) by (apply Rmult_lt_0_compat; lra); lra).
    assert (Fr : Rabs (mv / lf - pr) < eps / 2).
    { replace (mv / lf - pr) with ((mv - pr * lf) / INR N * (INR N / lf)) by (field; lra). rewrite Rabs_mult. rewrite (Rabs_pos_eq (INR N / lf)) by (apply Rlt_le, Rdiv_lt_0_compat; assumption).
      assert (B : INR N / lf < / (E s / 2)).
      { apply (Rmult_lt_reg_r (lf * (E s / 2))); [apply Rmult_lt_0_compat; lra|]. replace (INR N / lf * (lf * (E s / 2))) with (INR N * (E s / 2)) by (field; lra). replace (/ (E s / 2) * (lf * (E s / 2))) with lf by (field; lra). exact Lf. }
      apply Rle_lt_trans with (Rabs ((mv - pr * lf) / INR N) * / (E s / 2)); [apply Rmult_le_compat_l; [apply Rabs_pos|lra]|].
      apply Rlt_le_trans with (eps * E s / 4 * / (E s / 2)); [apply Rmult_lt_compat_r; [apply Rinv_0_lt_compat; lra|exact Dm]|]. right. field. lra. }
    assert (W0 : wf_mc (it 0%nat)) by (rewrite Z; exact Wh). assert (Lab : forall i, nth i (mc_lab (it 0%nat)) EmptyString = lab i) by (intros i; rewrite Z, Lh; reflexivity).
    pose proof (C149_mc_rate it p (combine ss vs) W0) as Rt. rewrite Z in Rt. specialize (Rt Dh ltac:(rewrite Lh; exact ND) PT HPm HE k s s' ltac:(rewrite Nh; exact Hs) ltac:(rewrite Nh; exact Hs')).
    rewrite Lh in Rt. cbv zeta in Rt. fold (lab s) (lab s') in Rt. fold lf mv in Rt. specialize (Rt Lf0). set (la := times_last (lab s) (combine ss vs)) in *.
    assert (La : 0 <= la <= INR N).
    { unfold la, times_last. rewrite Tot. split; [apply sumL_nonneg; intros; apply ends_nonneg|]. rewrite <- Ll. rewrite <- (Rmult_1_r (INR (length l))), <- sumL_const. apply sumL_le. intros tr _. clear. induction tr as [|o [|o' tr] IH]; cbn; [lra|destruct (String.eqb o (lab s)); lra|exact IH]. }
    assert (Qb : 0 <= la / (lf + la) <= / (1 + E s / 2)).
    { split; [apply Rmult_le_pos; [lra|apply Rlt_le, Rinv_0_lt_compat; lra]|]. apply (Rmult_le_reg_r ((lf + la) * (1 + E s / 2))); [apply Rmult_lt_0_compat; lra|].
      replace (la / (lf + la) * ((lf + la) * (1 + E s / 2))) with (la * (1 + E s / 2)) by (field; lra). replace (/ (1 + E s / 2) * ((lf + la) * (1 + E s / 2))) with (lf + la) by (field; lra).
      assert (la * (E s / 2) <= INR N * (E s / 2)) by (apply Rmult_le_compat_r; lra). lra. }
    assert (Pk : (la / (lf + la)) ^ k < eps / 2). { apply Rle_lt_trans with ((/ (1 + E s / 2)) ^ k); [apply pow_incr; exact Qb|]. apply HK; [exact Lk|]. apply in_map_iff. exists s. auto. }
    assert (H01 : 0 <= matR (mc_mat h) s s' <= 1).
    { pose proof Wh as [[Lm Lr] _]. assert (J : In (nth s (mc_mat h) []) (mc_mat h)) by (apply nth_In; rewrite Lm, Nh; exact Hs). destruct (Dh _ J) as [Nn Sm].
      assert (J2 : In (matR (mc_mat h) s s') (nth s (mc_mat h) [])) by (apply nth_In; rewrite (Lr _ J), Nh; exact Hs'). split; [apply Nn, J2|]. rewrite <- Sm, rsum_sumL. apply (sumL_ge_term _ (fun y => y)); [exact J2|exact Nn]. }
    assert (F01 : 0 <= mv / lf <= 1).
    { split; [apply Rmult_le_pos; [unfold mv, moves_seen; rewrite Tot; apply sumL_nonneg; intros; apply seen_nonneg|apply Rlt_le, Rinv_0_lt_compat, Lf0]|].
      apply (Rmult_le_reg_r lf); [exact Lf0|]. unfold Rdiv. rewrite Rmult_assoc, Rinv_l, Rmult_1_r, Rmult_1_l by lra. unfold mv, lf, moves_seen, times_left. rewrite !Tot. apply sumL_le. intros; apply seen_le_left. }
    assert (Dk : Rabs (matR (mc_mat (it k)) s s' - mv / lf) < eps / 2).
    { rewrite Rt, Rabs_mult. apply Rle_lt_trans with ((la / (lf + la)) ^ k * 1); [|lra]. rewrite (Rabs_pos_eq ((la / (lf + la)) ^ k)) by (apply pow_le; apply Qb).
      apply Rmult_le_compat_l; [apply pow_le; apply Qb|]. apply Rabs_le. lra. }
    replace (matR (mc_mat (it k)) s s' - pr) with ((matR (mc_mat (it k)) s s' - mv / lf) + (mv / lf - pr)) by ring. eapply Rle_lt_trans; [apply Rabs_triang|]. lra.
  - intros d l U Ll H. pose proof (generated_set trace_eqb trace_eqb_decides (S T) _ (Z.of_nat T) l d H) as G. rewrite Ll in G. destruct (setFromList trace_eqb l) as [ss vs]. cbn [fst snd]. apply not_iff_compat. split.
    + intros (ss' & vs' & it & G' & R). rewrite G in G'. injection G' as <- <-. exists it. exact R.
    + intros (it & R). exists ss, vs, it. split; [exact G|exact R].
Qed.
Print Assumptions C161_learning_converges.

(** From the uniform guess, traces of two labels: the chain of C150 is found. *)
Definition guess : mc R := mkMC [[1/2; 1/2]; [1/2; 1/2]] ["a"; "b"]%string [1; 0] "guess"%string.
Example C161_instance : left_within gen 1 0 /\ matR (mc_mat guess) 0 1 = 1/2 /\ matR (mc_mat gen) 0 1 = 3/4 /\ forall eps, 0 < eps -> exists C K, forall N p, (0 < N)%nat ->
    exists q, chance (N * 2) (fun d => ~ exists ss vs it, generated trace_eqb 2 (fun z => MRun.mc_run gen z (-1)) 1 N d = Ok (ss, vs) /\
        it 0%nat = guess /\ endless (round_MC p (combine ss vs)) it /\
        forall k s s', (K <= k)%nat -> (s < 2)%nat -> (s' < 2)%nat -> left_within gen 1 s -> Rabs (matR (mc_mat (it k)) s s' - matR (mc_mat gen) s s') < eps) q /\ q <= C / INR N.
Proof.
  assert (Wg : wf_mc guess /\ forall r, In r (mc_mat guess) -> is_dist r).
  { split; [|intros r [<-|[<-|[]]]; split; [intros v [<-|[<-|[]]]; lra|cbn; lra|intros v [<-|[<-|[]]]; lra|cbn; lra]].
    split; [split; [reflexivity|intros r [<-|[<-|[]]]; reflexivity]|]. split; [reflexivity|]. split; [reflexivity|]. intros v [<-|[<-|[]]]; lra. }
  assert (ND : NoDup (mc_lab gen)) by (repeat constructor; cbn; intuition discriminate).
  assert (Wd : forall tr, length tr = 2%nat -> 0 < mc_trace_prob gen tr -> In tr [["a"; "a"]; ["a"; "b"]; ["b"; "a"]; ["b"; "b"]]%string).
  { intros tr L P. apply (possible_word (FromMC gen) 1 gen_proper ["a"; "b"]%string ND (fun o I => I) tr L P). }
  assert (AC : forall tr, length tr = 2%nat -> 0 < mc_trace_prob gen tr -> 0 < mc_trace_prob guess tr).
  { intros tr L P. pose proof (Wd tr L P) as I. unfold mc_trace_prob, trace_prob, sumL in *. destruct I as [<-|[<-|[<-|[<-|[]]]]]; cbn in *; lra. }
  assert (LW : left_within gen 1 0). { exists ["a"; "b"]%string. split; [reflexivity|]. rewrite gen_ab. split; [lra|]. cbn. lra. }
  split; [exact LW|]. split; [reflexivity|]. split; [reflexivity|].
  exact (C161_learning_converges gen guess 1 gen_proper ND (proj1 Wg) (proj2 Wg) eq_refl AC).
Qed.
