(** C149 for MCs: when all labels of a chain are different, learning tends to the
    frequencies observed in the traces, and no chain explains the traces better. *)
From Coq Require Import String ZArith Bool Reals List Lia Lra.
From Verif Require Import Num Py SNum SPath LSum MSet SSet LSet MModels MLik MBW LFB LEM SBW LBW LBWSet LBWMC SLik LPath LLik LLik2 LBWLoop LBWPath SExp LEMGen PLik LFit PBWMC SGain LGain PGain SGrad LGrad LGrad2 PGrad PGrad2 SLimit LLimit PLimit SObs LObs.
Import ListNotations.
Local Open Scope R_scope.

Lemma seen_nonneg a b tr : 0 <= seen a b tr (ones tr).
Proof. induction tr as [|o [|o' r] IH]; cbn in *; try lra. destruct (String.eqb o a), (String.eqb o' b); lra. Qed.
Lemma left_nonneg a tr : 0 <= left a tr (ones tr).
Proof. induction tr as [|o [|o' r] IH]; cbn in *; try lra. destruct (String.eqb o a); lra. Qed.
Lemma ends_nonneg a tr : 0 <= ends a tr.
Proof. induction tr as [|o [|o' r] IH]; cbn in *; try lra. destruct (String.eqb o a); lra. Qed.

Lemma repeat_one (tr : list string) s s' : map (fun _ => on_move s s' 1) tr = map (on_move s s') (ones tr).
Proof. unfold ones. rewrite map_map. reflexivity. Qed.
Lemma repeat_one' (tr : list string) s : map (fun _ => on_leave s 1) tr = map (on_leave s) (ones tr).
Proof. unfold ones. rewrite map_map. reflexivity. Qed.

Lemma seen_le_left a b tr : seen a b tr (ones tr) <= left a tr (ones tr).
Proof. induction tr as [|o [|o' r] IH]; cbn in *; try lra. destruct (String.eqb o a), (String.eqb o' b); lra. Qed.

Lemma last_repeat {A} (x d : A) k : (0 < k)%nat -> last (repeat x k) d = x.
Proof. induction k as [|[|k] IH]; intros H; [lia|reflexivity|]. apply IH. lia. Qed.

Lemma nth_repeat_lt {A} (x d : A) k i : (i < k)%nat -> nth i (repeat x k) d = x.
Proof. revert i. induction k as [|k IH]; intros [|i] H; try lia; [reflexivity|]. apply IH. lia. Qed.

Section MCO.
  Variable m : mc R.
  Hypothesis W : wf_mc m.
  Hypothesis D : forall r, In r (mc_mat m) -> is_dist r.
  Hypothesis ND : NoDup (mc_lab m).
  Notation lab s := (nth s (mc_lab m) EmptyString).
  Lemma mco_sub : mc_sub m.
  Proof. split; [split; [exact W|]|]; intros r I; destruct (D r I) as [N S]; [exact N|right; exact S]. Qed.
  Lemma mco_row s : (s < mc_n m)%nat -> Sum (mc_n m) (matR (mc_mat m) s) = 1.
  Proof.
    intros Hs. destruct W as [[Lm Lr] _]. assert (I : In (nth s (mc_mat m) []) (mc_mat m)) by (apply nth_In; rewrite Lm; exact Hs).
    destruct (D _ I) as [_ S]. rewrite rsum_nth, (Lr _ I) in S. exact S.
  Qed.
  Lemma mco_tot tr : mc_trace_prob_move m tr = tot (mc_n m) (vecR (mc_ini m)) (wts (repeat (matR (mc_mat m)) (length tr)) (map (is_label (mc_lab m)) tr)) (fun _ => 1).
  Proof. unfold mc_trace_prob_move. apply paths_tot. rewrite repeat_length, map_length. reflexivity. Qed.
  Lemma mco_moves tr s s' : (s < mc_n m)%nat -> (s' < mc_n m)%nat ->
    mc_expected_moves m s s' tr = mc_trace_prob_move m tr * (seen (lab s) (lab s') tr (ones tr) + ends (lab s) tr * matR (mc_mat m) s s').
  Proof.
    intros Hs Hs'. unfold mc_expected_moves. rewrite repeat_one.
    rewrite (expected_gen _ _ _ _ _ _ s s' (ones tr)) by (rewrite ?repeat_length, ?map_length, ?ones_length; auto).
    rewrite mco_tot, <- endc_ones.
    apply (xi_seen (mc_n m) (mc_lab m) (proj1 (proj2 W)) ND (fun _ => 1) s s' (matR (mc_mat m) s) Hs Hs'); [apply repeat_length|apply ones_length|].
    intros NE s2 Hs2. rewrite last_repeat by (destruct tr; [congruence|cbn; lia]).
    rewrite (Sum_ext _ _ (matR (mc_mat m) s)) by (intros; ring). rewrite mco_row by exact Hs. ring.
  Qed.
  Lemma mco_visits tr s : (s < mc_n m)%nat ->
    mc_expected_visits m s tr = mc_trace_prob_move m tr * (left (lab s) tr (ones tr) + ends (lab s) tr).
  Proof.
    intros Hs. unfold mc_expected_visits. rewrite repeat_one'.
    rewrite expected_leave by (rewrite ?repeat_length, ?map_length, ?ones_length; auto).
    rewrite mco_tot, <- endc_ones.
    apply (gam_left (mc_n m) (mc_lab m) (proj1 (proj2 W)) ND (fun _ => 1) s Hs); [apply repeat_length|apply ones_length].
  Qed.
End MCO.

(** One round: the observed moves, plus a share for the traces that end in the state. *)
Theorem C149_mc_round : forall (m m' : mc R) (p : nat) (set : list (list string * Z)) (ll : R),
  wf_mc m -> (forall r, In r (mc_mat m) -> is_dist r) -> NoDup (mc_lab m) -> pos_times set ->
  (forall tr t, In (tr, t) set -> 0 < mc_trace_prob_move m tr) ->
  round_MC p set m = Ok (m', ll) ->
  forall s s', (s < mc_n m)%nat -> (s' < mc_n m)%nat ->
    let a := nth s (mc_lab m) EmptyString in
    let b := nth s' (mc_lab m) EmptyString in
    matR (mc_mat m') s s' =
      if Req_EM_T (times_left a set + times_last a set) 0 then matR (mc_mat m) s s'
      else (moves_seen a b set + times_last a set * matR (mc_mat m) s s') / (times_left a set + times_last a set).
Proof.
  intros m m' p set ll W D ND HT HP E s s' Hs Hs' a b.
  destruct (C73_mc_round_is_ratio_of_expectations m m' p set ll W (proj2 (proj1 (mco_sub m W D))) E) as (_ & _ & _ & _ & _ & K).
  rewrite K by assumption.
  rewrite (set_expected_total _ _ (fun tr => left a tr (ones tr) + ends a tr) set HP) by (intros; apply mco_visits; assumption).
  rewrite (set_expected_total _ _ (fun tr => seen a b tr (ones tr) + ends a tr * matR (mc_mat m) s s') set HP) by (intros; apply mco_moves; assumption).
  rewrite !total_plus, total_scal. reflexivity.
Qed.
Print Assumptions C149_mc_round.

Lemma mco_inv it p set : wf_mc (it 0%nat) -> (forall r, In r (mc_mat (it 0%nat)) -> is_dist r) -> pos_times set ->
  (forall tr t, In (tr, t) set -> 0 < mc_trace_prob_move (it 0%nat) tr) -> endless (round_MC p set) it ->
  forall k, wf_mc (it k) /\ (forall r, In r (mc_mat (it k)) -> is_dist r) /\ mc_frame (it 0%nat) (it k) /\
    (forall tr t, In (tr, t) set -> 0 < mc_trace_prob_move (it k) tr).
Proof.
  intros W D HT HP HE. pose proof (mco_sub _ W D) as S0. destruct (mc_run it p set S0 HT HE) as (A & _ & Q).
  assert (Rk : forall k r, In r (mc_mat (it k)) -> rsum r = 1).
  { intros k. induction k as [|k IH]; [intros r I; apply (D r I)|]. destruct (HE k) as [ll El].
    apply (row_rule (it k) set p (it (S k)) ll (fun v => v = 1) (proj1 (proj1 (A k))) El); auto. }
  intros k. destruct (A k) as [[[Wk Nk] _] Fk]. split; [exact Wk|]. split; [intros r I; split; [apply (Nk r I)|apply (Rk k r I)]|].
  split; [exact Fk|]. intros tr t I. apply (Q k tr t I). apply (HP tr t I).
Qed.

(** Endless learning: the distance to the observed frequency shrinks at every
    round by the same factor. *)
Theorem C149_mc_rate : forall (it : nat -> mc R) (p : nat) (set : list (list string * Z)),
  wf_mc (it 0%nat) -> (forall r, In r (mc_mat (it 0%nat)) -> is_dist r) -> NoDup (mc_lab (it 0%nat)) -> pos_times set ->
  (forall tr t, In (tr, t) set -> 0 < mc_trace_prob_move (it 0%nat) tr) -> endless (round_MC p set) it ->
  forall k s s', (s < mc_n (it 0%nat))%nat -> (s' < mc_n (it 0%nat))%nat ->
    let a := nth s (mc_lab (it 0%nat)) EmptyString in
    let b := nth s' (mc_lab (it 0%nat)) EmptyString in
    0 < times_left a set ->
    matR (mc_mat (it k)) s s' - moves_seen a b set / times_left a set =
      (times_last a set / (times_left a set + times_last a set)) ^ k * (matR (mc_mat (it 0%nat)) s s' - moves_seen a b set / times_left a set).
Proof.
  intros it p set W D ND HT HP HE k s s' Hs Hs' a b L. pose proof (mco_inv it p set W D HT HP HE) as A.
  assert (En : 0 <= times_last a set) by (apply total_nonneg; [exact HT|intros; apply ends_nonneg]).
  induction k as [|k IH]; [cbn [pow]; ring|]. destruct (HE k) as [ll El]. destruct (A k) as (Wk & Dk & (F1 & F2 & _) & Pk).
  rewrite (C149_mc_round (it k) (it (S k)) p set ll Wk Dk) by (rewrite ?F1, ?F2; assumption). rewrite F2. fold a b.
  destruct (Req_EM_T (times_left a set + times_last a set) 0) as [Z|Z]; [lra|]. cbn [pow]. rewrite Rmult_assoc, <- IH. field. lra.
Qed.
Print Assumptions C149_mc_rate.

Lemma cv_pow q : 0 <= q < 1 -> Un_cv (fun k => q ^ k) 0.
Proof.
  intros H e He. destruct (pow_lt_1_zero q ltac:(rewrite Rabs_pos_eq; lra) e He) as [N HN]. exists N. intros k Hk. unfold R_dist. rewrite Rminus_0_r. apply HN. exact Hk.
Qed.
Theorem C149_mc_converges : forall (it : nat -> mc R) (p : nat) (set : list (list string * Z)),
  wf_mc (it 0%nat) -> (forall r, In r (mc_mat (it 0%nat)) -> is_dist r) -> NoDup (mc_lab (it 0%nat)) -> pos_times set ->
  (forall tr t, In (tr, t) set -> 0 < mc_trace_prob_move (it 0%nat) tr) -> endless (round_MC p set) it ->
  forall s s', (s < mc_n (it 0%nat))%nat -> (s' < mc_n (it 0%nat))%nat ->
    let a := nth s (mc_lab (it 0%nat)) EmptyString in
    let b := nth s' (mc_lab (it 0%nat)) EmptyString in
    0 < times_left a set ->
    Un_cv (fun k => matR (mc_mat (it k)) s s') (moves_seen a b set / times_left a set).
Proof.
  intros it p set W D ND HT HP HE s s' Hs Hs' a b L.
  assert (En : 0 <= times_last a set) by (apply total_nonneg; [exact HT|intros; apply ends_nonneg]).
  set (q := times_last a set / (times_left a set + times_last a set)).
  assert (Hq : 0 <= q < 1).
  { unfold q. split; [apply Rmult_le_pos; [exact En|]; apply Rlt_le, Rinv_0_lt_compat; lra|]. apply (Rmult_lt_reg_r (times_left a set + times_last a set)); [lra|].
    unfold Rdiv. rewrite Rmult_assoc, Rinv_l, Rmult_1_r, Rmult_1_l by lra. lra. }
  apply (cv_ext (fun k => q ^ k * (matR (mc_mat (it 0%nat)) s s' - moves_seen a b set / times_left a set) + moves_seen a b set / times_left a set)).
  - intros k. pose proof (C149_mc_rate it p set W D ND HT HP HE k s s' Hs Hs' L) as X. fold a b in X. fold q in X. lra.
  - apply (cv_lim _ (0 * (matR (mc_mat (it 0%nat)) s s' - moves_seen a b set / times_left a set) + moves_seen a b set / times_left a set)); [ring|].
    apply CV_plus; [apply CV_mult; [apply cv_pow; exact Hq|exact (cv_const _)]|exact (cv_const _)].
Qed.
Print Assumptions C149_mc_converges.

Lemma left_pos a os l : In a os -> 0 < left a (os ++ [l]) (ones (os ++ [l])).
Proof.
  induction os as [|o os IH]; [intros []|]. intros I. pose proof (left_nonneg a (os ++ [l])) as N.
  assert (X : left a ((o :: os) ++ [l]) (ones ((o :: os) ++ [l])) = (if String.eqb o a then 1 else 0) + left a (os ++ [l]) (ones (os ++ [l]))).
  { cbn [app]. destruct (os ++ [l]) as [|o' r] eqn:E; [destruct os; discriminate|]. reflexivity. }
  rewrite X. destruct (String.eqb_spec o a); [lra|]. destruct I as [->|I]; [congruence|]. specialize (IH I). lra.
Qed.
Lemma mc_agree (m mo : mc R) set : mc_n mo = mc_n m -> mc_lab mo = mc_lab m -> mc_ini mo = mc_ini m ->
  length (mc_lab m) = mc_n m -> NoDup (mc_lab m) -> pos_times set ->
  (forall s s', (s < mc_n m)%nat -> (s' < mc_n m)%nat -> 0 < times_left (nth s (mc_lab m) EmptyString) set -> matR (mc_mat mo) s s' = matR (mc_mat m) s s') ->
  forall tr t, In (tr, t) set -> tr <> [] -> mc_trace_prob mo tr = mc_trace_prob m tr.
Proof.
  intros F1 F2 F3 Ll ND HT H tr t I NE. unfold mc_trace_prob. rewrite F1, F2, F3.
  destruct (exists_last NE) as (os & l & ->). rewrite map_app. cbn [map]. rewrite app_length. cbn [length]. replace (length os + 1 - 1)%nat with (length os) by lia.
  rewrite !paths_tot by (rewrite repeat_length, map_length; reflexivity).
  apply (tot_agree (mc_n m) (mc_lab m) Ll); try apply repeat_length.
  intros k i j Hk Hi Hj E. rewrite !nth_repeat_lt by exact Hk.
  apply H; [exact Hi|exact Hj|]. apply (total_pos _ _ (os ++ [l]) t HT); [intros; apply left_nonneg|exact I|].
  apply left_pos. rewrite <- E. apply nth_In. exact Hk.
Qed.

(** No chain with these states explains the traces better than the observed
    frequencies: whatever the other chain, if it can produce the traces, so can
    the chain of the frequencies, with at least the same likelihood. *)
Theorem C149_mc_optimal : forall (m mo : mc R) (set : list (list string * Z)),
  wf_mc m -> (forall r, In r (mc_mat m) -> is_dist r) -> wf_mc mo -> (forall r, In r (mc_mat mo) -> is_dist r) ->
  mc_n mo = mc_n m -> mc_lab mo = mc_lab m -> mc_ini mo = mc_ini m -> NoDup (mc_lab m) ->
  pos_times set -> set <> [] -> (forall tr t, In (tr, t) set -> tr <> []) ->
  (forall tr t, In (tr, t) set -> 0 < mc_trace_prob m tr) ->
  mc_frequencies set mo ->
  (forall tr t, In (tr, t) set -> 0 < mc_trace_prob mo tr) /\
  set_ll (mc_trace_prob m) set <= set_ll (mc_trace_prob mo) set.
Proof.
  intros m mo set W D Wo Do F1 F2 F3 ND HT NE0 NE HP HF.
  assert (Mv : forall x : mc R, wf_mc x -> (forall r, In r (mc_mat x) -> is_dist r) -> forall tr t, In (tr, t) set -> mc_trace_prob_move x tr = mc_trace_prob x tr).
  { intros x Wx Dx tr t I. apply move_trace; [exact Wx|intros r Ir; apply (Dx r Ir)|apply (NE tr t I)]. }
  assert (HPm : forall tr t, In (tr, t) set -> 0 < mc_trace_prob_move m tr) by (intros tr t I; rewrite (Mv m W D tr t I); apply (HP tr t I)).
  pose proof (mco_sub m W D) as S0.
  destruct (C148_mc_endless m 1 set W (conj (proj2 (proj1 S0)) (proj2 S0)) HT) as (it & Z & HE); [|right; exact HPm|].
  { destruct set as [|[tr t] r]; [congruence|]. exists tr, t. split; [left; reflexivity|]. apply (HPm tr t). left. reflexivity. }
  rewrite <- Z in W, D, ND, HP, HPm, S0, F1, F2, F3. pose proof (mco_inv it 1 set W D HT HPm HE) as A. set (n := mc_n (it 0%nat)) in *.
  set (lim := fun s j => if Rlt_dec 0 (times_left (nth s (mc_lab (it 0%nat)) EmptyString) set) then matR (mc_mat mo) s j else matR (mc_mat (it 0%nat)) s j).
  set (mx := mkMC (vbuild n (fun s => vbuild n (fun j => lim s j))) (mc_lab (it 0%nat)) (mc_ini (it 0%nat)) (mc_name (it 0%nat))).
  assert (En : mc_n mx = n) by (unfold mc_n, mx; cbn [mc_mat]; apply vbuild_length).
  assert (Lx : forall s j, (s < n)%nat -> (j < n)%nat -> matR (mc_mat mx) s j = lim s j) by (intros s j Hs Hj; apply (mget_vbuild n n lim); assumption).
  assert (T : mc_tends (fun k => it k) mx).
  { split; [intros k; rewrite En; apply (A k)|]. rewrite En. split; [apply vbuild_length|]. split.
    - intros r I. apply in_map_iff in I. destruct I as [s [<- _]]. apply vbuild_length.
    - intros s j Hs Hj. rewrite Lx by assumption. unfold lim. destruct (Rlt_dec _ _) as [Lt|Ge].
      + rewrite HF by (rewrite ?F1, ?F2; assumption). rewrite F2. apply (C149_mc_converges it 1 set); assumption.
      + apply (cv_ext (fun _ => matR (mc_mat (it 0%nat)) s j)); [|exact (cv_const _)].
        set (a := nth s (mc_lab (it 0%nat)) EmptyString) in *.
        assert (La : times_left a set = 0). { pose proof (total_nonneg (fun tr => left a tr (ones tr)) set HT (fun tr _ _ => left_nonneg a tr)). unfold times_left in *. lra. }
        assert (Ma : moves_seen a (nth j (mc_lab (it 0%nat)) EmptyString) set = 0).
        { apply Rle_antisym; [|apply (total_nonneg _ set HT); intros; apply seen_nonneg]. rewrite <- La. unfold moves_seen, times_left, total. apply sumL_le.
          intros [tr t] I. cbn [fst snd]. apply Rmult_le_compat_l; [apply IZR_le; pose proof (HT _ I) as Q; cbn in Q; lia|].
          apply seen_le_left. }
        intros k. induction k as [|k IH]; [reflexivity|]. destruct (HE k) as [ll El]. destruct (A k) as (Wk & Dk & (G1 & G2 & _) & Pk).
        rewrite (C149_mc_round (it k) (it (S k)) 1 set ll Wk Dk) by (rewrite ?G1, ?G2; assumption). rewrite G2. fold a. rewrite La, Ma, <- IH.
        destruct (Req_EM_T _ 0) as [|Nz]; [reflexivity|]. field. lra. }
  assert (G : grows (fun k => k)) by (intros k; cbv beta; lia).
  pose proof (mcl_ok it (fun k => k) mx 1 set S0 HT HE T) as [[Wx Nx] _].
  assert (Dx : forall r, In r (mc_mat mx) -> is_dist r).
  { intros r I. split; [apply (Nx r I)|]. apply (In_nth _ _ []) in I. destruct I as [s [Hs <-]]. fold (mc_n mx) in Hs. rewrite En in Hs.
    destruct Wx as [[Lm Lr] _]. rewrite rsum_nth, (Lr _ (nth_In _ [] ltac:(rewrite Lm, En; exact Hs))), En. fold (matR (mc_mat mx) s). rewrite (Sum_ext n _ (lim s)) by (intros j Hj; apply Lx; assumption).
    unfold lim. destruct (Rlt_dec _ _); [rewrite <- F1; apply (mco_row mo Wo Do)|apply (mco_row _ W D)]; rewrite ?F1; exact Hs. }
  assert (Ag : forall tr t, In (tr, t) set -> mc_trace_prob mx tr = mc_trace_prob mo tr).
  { intros tr t I. apply (mc_agree mo mx set) with (t := t); auto; try congruence.
    - rewrite F2, F1. apply W.
    - intros s j Hs Hj Lt. rewrite F1 in Hs, Hj. rewrite Lx by assumption. unfold lim. rewrite F2 in Lt. destruct (Rlt_dec _ _); [reflexivity|contradiction].
    - apply (NE tr t I). }
  split.
  - intros tr t I. rewrite <- (Ag tr t I), <- (Mv mx Wx Dx tr t I). apply (mcl_possible it (fun k => k) mx 1 set S0 HT HE T tr t I). apply (HPm tr t I).
  - rewrite <- Z. rewrite <- (set_ll_ext _ _ set Ag), <- (set_ll_ext _ _ set (Mv mx Wx Dx)), <- (set_ll_ext _ _ set (Mv _ W D)).
    apply (cv_ge (fun k => set_ll (mc_trace_prob_move (it k)) set)).
    + intros k. apply (up_le (fun k => set_ll (mc_trace_prob_move (it k)) set)); [|lia]. exact (mcl_up it 1 set S0 HT HE).
    + apply (mcl_ll it (fun k => k) mx 1 set S0 HT HE G T).
Qed.
Print Assumptions C149_mc_optimal.
