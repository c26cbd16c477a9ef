(** Theorems about learning Markov chains: C33, C34, C37, C38, C42, C73. *)
From Coq Require Import String ZArith Bool Reals List Lia Lra Permutation.
From Verif Require Import Num Py SNum SPath LSum MSet SSet LSet MModels MLik MBW LFB LEM SBW LBW LBWSet LBWMC SLik LPath LLik LLik2 LBWLoop LBWPath SExp PLik.
Import ListNotations.
Local Open Scope R_scope.

(** ** C33 *)

(** For every model class the learning algorithm uses the same two recursions,
    with its own position weights [ws] and last backward row [f]. *)
Theorem C33_forward_backward : forall (n : nat) (a f : list R) (ws : list (nat -> nat -> R)) (k : nat),
  length a = n -> length f = n -> (k <= length ws)%nat ->
  Sum n (fun s => vecR (nth k (bw_alphas n a ws) []) s * vecR (nth k (bw_betas n f ws) []) s)
  = Sum n (fun s => vecR (last (bw_alphas n a ws) []) s * vecR f s).
Proof.
  intros n a f ws k La Lf Hk. change vecR with (@vget R RNum). rewrite fb_position by assumption.
  rewrite tot_steps, bw_alphas_last. apply Sum_ext. intros s Hs.
  destruct (fold_fstep n ws a La) as [_ E]. rewrite E by exact Hs. reflexivity.
Qed.
Print Assumptions C33_forward_backward.

Lemma mcP_path (m : mc R) tr : mcP m tr = mc_trace_prob_move m tr.
Proof. unfold mcP, mc_trace_prob_move. rewrite mc_ws_wts, trace_prob_move_tot. reflexivity. Qed.

(** Markov chains: it is the probability of the trace followed by one more move. *)
Theorem C33_mc_forward_backward : forall (m : mc R) (tr : list string) (k : nat), wf_mc m -> (k <= length tr)%nat ->
  Sum (mc_n m) (fun s => vecR (nth k (bw_alphas (mc_n m) (mc_ini m) (mc_ws m tr)) []) s
                       * vecR (nth k (bw_betas (mc_n m) (vones (mc_n m)) (mc_ws m tr)) []) s)
  = mc_trace_prob_move m tr.
Proof.
  intros m tr k W Hk. change vecR with (@vget R RNum). rewrite fb_position; [|apply W|apply vones_length|unfold mc_ws; rewrite map_length; exact Hk].
  rewrite <- mcP_path. apply tot_ext_f. intros; apply vget_vones; assumption.
Qed.
Print Assumptions C33_mc_forward_backward.

Example C33_instance : mc_trace_prob_move ex_mc ["init"; "a"; "b"]%string = 1/6.
Proof. unfold mc_trace_prob_move, trace_prob, sumL. cbn. lra. Qed.

(** ** One round *)

Lemma map_const {A B} (h : R -> B) (l : list A) : map h (repeat 1 (length l)) = map (fun _ => h 1) l.
Proof. induction l; cbn; [reflexivity|]. f_equal. exact IHl. Qed.
Lemma mc_wts m (tr : list string) : mc_ws m tr = wts (repeat (matR (mc_mat m)) (length tr)) (map (is_label (mc_lab m)) tr).
Proof. rewrite mc_ws_wts, wts_map. reflexivity. Qed.
Lemma mcNUM_path (m : mc R) set s s' : (s < mc_n m)%nat -> (s' < mc_n m)%nat ->
  mcNUM m set s s' = set_expected (mc_trace_prob_move m) (mc_expected_moves m s s') set.
Proof.
  intros Hs Hs'. unfold mcNUM. rewrite (XI_expected _ _ _ _ _ (fun tr => repeat (matR (mc_mat m)) (length tr)) (fun tr => map (is_label (mc_lab m)) tr)); auto.
  - apply set_expected_ext; intros tr t I; [reflexivity|]. intros _. unfold mc_expected_moves, ones1. f_equal. unfold mc_ws. rewrite map_length. apply map_const.
  - intros tr t _. apply mc_wts.
  - intros tr t _. rewrite repeat_length, map_length. reflexivity.
  - intros tr t _. unfold ones1, mc_ws. rewrite repeat_length, !map_length. reflexivity.
Qed.
Lemma mcDEN_path (m : mc R) set s : (s < mc_n m)%nat ->
  mcDEN m set s = set_expected (mc_trace_prob_move m) (mc_expected_visits m s) set.
Proof.
  intros Hs. unfold mcDEN. rewrite (GA_expected _ _ _ _ _ (fun tr => repeat (matR (mc_mat m)) (length tr)) (fun tr => map (is_label (mc_lab m)) tr)); auto.
  - apply set_expected_ext; intros tr t I; [reflexivity|]. intros _. unfold mc_expected_visits, ones1. f_equal. unfold mc_ws. rewrite map_length. apply map_const.
  - intros tr t _. apply mc_wts.
  - intros tr t _. rewrite repeat_length, map_length. reflexivity.
  - intros tr t _. unfold ones1, mc_ws. rewrite repeat_length, !map_length. reflexivity.
Qed.

(** C73: a round replaces each probability by the ratio of the expected number
    of moves from s to s' and of the expected number of moves from s, given the
    traces (impossible traces are ignored); nothing else changes. *)
Theorem C73_mc_round_is_ratio_of_expectations : forall (m m' : mc R) (p : nat) (set : list (list string * Z)) (ll : R),
  wf_mc m -> nonneg_mat (mc_mat m) -> round_MC p set m = Ok (m', ll) ->
  mc_lab m' = mc_lab m /\ mc_ini m' = mc_ini m /\ mc_name m' = mc_name m /\ square (mc_n m) (mc_mat m') /\
  ll = set_ll (mc_trace_prob_move m) set /\
  forall s s', (s < mc_n m)%nat -> (s' < mc_n m)%nat ->
    let visits := set_expected (mc_trace_prob_move m) (mc_expected_visits m s) set in
    let moves := set_expected (mc_trace_prob_move m) (mc_expected_moves m s s') set in
    matR (mc_mat m') s s' = if Req_EM_T visits 0 then matR (mc_mat m) s s' else moves / visits.
Proof.
  intros m m' p set ll W N E. destruct (round_MC_spec m W set N (proj2 (proj2 (proj2 W))) p m' ll E) as (A & B & C & D & Sq & G & L & _).
  repeat split; auto; try apply Sq.
  - rewrite L. apply set_ll_ext. intros; apply mcP_path.
  - intros s s' Hs Hs' visits moves. change matR with (@mget R RNum). rewrite G by assumption. unfold est.
    rewrite mcDEN_path, mcNUM_path by assumption. reflexivity.
Qed.
Print Assumptions C73_mc_round_is_ratio_of_expectations.

(** ** C34 *)

Definition mc_ok (m : mc R) : Prop := wf_mc m /\ nonneg_mat (mc_mat m).
Lemma round_mc_ok m set p m' ll : mc_ok m -> round_MC p set m = Ok (m', ll) -> pos_times set ->
  mc_ok m' /\ mc_n m' = mc_n m /\ mc_lab m' = mc_lab m /\ mc_ini m' = mc_ini m /\ mc_name m' = mc_name m.
Proof.
  intros [W N] E HT. destruct (round_MC_spec m W set N (proj2 (proj2 (proj2 W))) p m' ll E) as (A & B & C & D & Sq & G & L & _).
  split; [split; [|apply (mc_nonneg_mat' m set N (proj2 (proj2 (proj2 W))) HT m' Sq G)]|auto].
  unfold wf_mc. rewrite A, B, D. split; [exact Sq|]. apply W.
Qed.

Lemma row_rule m set p m' ll (Q : R -> Prop) : mc_ok m -> round_MC p set m = Ok (m', ll) -> Q 1 ->
  (forall r, In r (mc_mat m) -> Q (rsum r)) -> forall r, In r (mc_mat m') -> Q (rsum r).
Proof.
  intros [W N] E Q1 H r I. destruct (round_MC_spec m W set N (proj2 (proj2 (proj2 W))) p m' ll E) as (A & B & C & D & Sq & G & L & _).
  apply (In_nth _ _ []) in I. destruct I as [s [Hs <-]]. rewrite (proj1 Sq) in Hs.
  rewrite (mc_row_sum' m W set m' Sq G s Hs). destruct (Req_EM_T _ 0); [|exact Q1]. apply H. apply (nth_mget_in _ (mc_n m)); [apply W|exact Hs].
Qed.

Theorem C34_mc_learning_stochastic : forall (m m' : mc R) (p max_it c : nat) (set : list (list string * Z)) (eps : R) ll stopped,
  wf_mc m -> stochastic (mc_mat m) -> pos_times set ->
  bw_loop (round_MC p set) eps max_it None 0 m = Ok (m', c, ll, stopped) ->
  wf_mc m' /\ stochastic (mc_mat m') /\ mc_n m' = mc_n m /\ mc_lab m' = mc_lab m /\ mc_ini m' = mc_ini m /\ mc_name m' = mc_name m.
Proof.
  intros m m' p mx c set eps ll st W [N S1] HT E.
  apply (bw_loop_inv _ _ (fun x => (mc_ok x /\ (forall r, In r (mc_mat x) -> rsum r = 1)) /\ mc_n x = mc_n m /\ mc_lab x = mc_lab m /\ mc_ini x = mc_ini m /\ mc_name x = mc_name m)) in E.
  - destruct E as [[[W' N'] S'] [A [B [C D]]]]. repeat split; auto; apply W'.
  - intros x x' l [[Ok1 S'] [A [B [C D]]]] Er. destruct (round_mc_ok x set p x' l Ok1 Er HT) as [Ok2 [A' [B' [C' D']]]].
    split; [split; [exact Ok2|]|repeat split; congruence].
    apply (row_rule x set p x' l (fun v => v = 1) Ok1 Er); auto.
  - repeat split; auto; apply W.
Qed.
Print Assumptions C34_mc_learning_stochastic.

(** Rows without transitions (absorbing states) are also preserved. *)
Theorem C34_mc_learning_stochastic_or_empty : forall (m m' : mc R) (p max_it c : nat) (set : list (list string * Z)) (eps : R) ll stopped,
  wf_mc m -> stochastic01 (mc_mat m) -> pos_times set ->
  bw_loop (round_MC p set) eps max_it None 0 m = Ok (m', c, ll, stopped) -> wf_mc m' /\ stochastic01 (mc_mat m').
Proof.
  intros m m' p mx c set eps ll st W [N S1] HT E.
  apply (bw_loop_inv _ _ (fun x => mc_ok x /\ (forall r, In r (mc_mat x) -> rsum r = 0 \/ rsum r = 1))) in E.
  - destruct E as [[W' N'] S']. split; [exact W'|]. split; assumption.
  - intros x x' l [Ok1 S'] Er. split; [apply (round_mc_ok x set p x' l Ok1 Er HT)|].
    apply (row_rule x set p x' l (fun v => v = 0 \/ v = 1) Ok1 Er); auto.
  - repeat split; auto; apply W.
Qed.
Print Assumptions C34_mc_learning_stochastic_or_empty.

(** A state with no expected visit keeps its transitions in the round ... *)
Theorem C34_mc_unvisited_round : forall (m m' : mc R) (p s : nat) (set : list (list string * Z)) (ll : R),
  wf_mc m -> nonneg_mat (mc_mat m) -> round_MC p set m = Ok (m', ll) -> (s < mc_n m)%nat ->
  (forall tr t, In (tr, t) set -> mc_expected_visits m s tr = 0) ->
  forall s', (s' < mc_n m)%nat -> matR (mc_mat m') s s' = matR (mc_mat m) s s'.
Proof.
  intros m m' p s set ll W N E Hs Hv s' Hs'.
  destruct (C73_mc_round_is_ratio_of_expectations m m' p set ll W N E) as (_ & _ & _ & _ & _ & G). rewrite G by assumption.
  cbn zeta. destruct (Req_EM_T _ 0) as [|NZ]; [reflexivity|]. exfalso. apply NZ. unfold set_expected. apply sumL_zero_ext.
  intros [tr t] I. cbn [fst snd]. rewrite (Hv tr t I). destruct (Rlt_dec _ _); [|reflexivity]. unfold Rdiv. ring.
Qed.
Print Assumptions C34_mc_unvisited_round.

(** ... in particular when its label does not occur in the training set, whatever
    the number of rounds. *)
Lemma wsum_gam_label (m : mc R) s tr : (forall o, In o tr -> o <> nth s (mc_lab m) EmptyString) ->
  mc_expected_visits m s tr = 0 \/ (mc_n m <= s)%nat.
Proof.
  intros H. destruct (Nat.lt_ge_cases s (mc_n m)) as [Hs|Hs]; [left|right; exact Hs].
  unfold mc_expected_visits. rewrite <- (map_const (on_leave s)).
  rewrite expected_leave by (rewrite ?repeat_length, ?map_length; auto).
  rewrite <- mc_wts. apply wsum_zero. generalize (vecR (mc_ini m)). induction tr as [|o tr IH]; intros a k; [destruct k; reflexivity|].
  destruct k as [|k]; cbn [mc_ws map gam nth].
  - cbn [Bk]. rewrite Sum_zero_ext; [ring|]. intros s' Hs'. unfold mc_tau, lab.
    destruct (String.eqb_spec o (nth s (mc_lab m) EmptyString)) as [E|]; [exfalso; apply (H o); [left; reflexivity|exact E]|].
    cbn [negb]. nR. ring.
  - apply IH. intros o' I. apply H. right; exact I.
Qed.
Theorem C34_mc_unvisited_label : forall (m m' : mc R) (p max_it c s : nat) (set : list (list string * Z)) (eps : R) ll stopped,
  wf_mc m -> nonneg_mat (mc_mat m) -> pos_times set -> (s < mc_n m)%nat ->
  (forall tr t, In (tr, t) set -> ~ In (nth s (mc_lab m) EmptyString) tr) ->
  bw_loop (round_MC p set) eps max_it None 0 m = Ok (m', c, ll, stopped) ->
  forall s', (s' < mc_n m)%nat -> matR (mc_mat m') s s' = matR (mc_mat m) s s'.
Proof.
  intros m m' p mx c s set eps ll st W N HT Hs Hl E s' Hs'.
  apply (bw_loop_inv _ _ (fun x => mc_ok x /\ mc_n x = mc_n m /\ mc_lab x = mc_lab m /\ matR (mc_mat x) s s' = matR (mc_mat m) s s')) in E.
  - apply E.
  - intros x x' l [Ok1 [A [B C]]] Er. destruct (round_mc_ok x set p x' l Ok1 Er HT) as [Ok2 [A' [B' _]]].
    split; [exact Ok2|]. split; [congruence|]. split; [congruence|]. rewrite <- C.
    apply (C34_mc_unvisited_round x x' p s set l); auto; try apply Ok1; try (rewrite A; assumption).
    intros tr t I. destruct (wsum_gam_label x s tr) as [Z|Z]; [|exact Z|rewrite A in Z; lia].
    intros o Io Eo. rewrite B in Eo. subst o. exact (Hl tr t I Io).
  - repeat split; auto; apply W.
Qed.
Print Assumptions C34_mc_unvisited_label.

(** ** C37 *)
Theorem C37_mc_zero_stays_zero : forall (m m' : mc R) (p max_it c s s' : nat) (set : list (list string * Z)) (eps : R) ll stopped,
  wf_mc m -> nonneg_mat (mc_mat m) -> pos_times set -> (s < mc_n m)%nat -> (s' < mc_n m)%nat ->
  bw_loop (round_MC p set) eps max_it None 0 m = Ok (m', c, ll, stopped) ->
  matR (mc_mat m) s s' = 0 -> matR (mc_mat m') s s' = 0.
Proof.
  intros m m' p mx c s s' set eps ll st W N HT Hs Hs' E Z.
  apply (bw_loop_inv _ _ (fun x => mc_ok x /\ mc_n x = mc_n m /\ matR (mc_mat x) s s' = 0)) in E.
  - apply E.
  - intros x x' l [Ok1 [A B]] Er. destruct (round_mc_ok x set p x' l Ok1 Er HT) as [Ok2 [A' _]].
    split; [exact Ok2|]. split; [congruence|]. destruct Ok1 as [W1 N1].
    destruct (round_MC_spec x W1 set N1 (proj2 (proj2 (proj2 W1))) p x' l Er) as (_ & _ & _ & _ & Sq & G & _).
    apply (mc_zero' x set x' G); auto; rewrite A; assumption.
  - repeat split; auto; apply W.
Qed.
Print Assumptions C37_mc_zero_stays_zero.

(** ** C38 *)

Lemma ws_lab (m m' : mc R) : mc_n m' = mc_n m -> mc_ini m' = mc_ini m -> forall tr,
  tot (mc_n m) (vget (mc_ini m)) (mc_ws m' tr) (fun _ => 1) = mc_trace_prob_move m' tr.
Proof. intros A B tr. rewrite <- mcP_path. unfold mcP. rewrite A, B. reflexivity. Qed.

Lemma round_mc_mono m set p m' ll : mc_ok m -> (forall r, In r (mc_mat m) -> rsum r <= 1) -> pos_times set -> round_MC p set m = Ok (m', ll) ->
  ll = set_ll (mc_trace_prob_move m) set /\ set_ll (mc_trace_prob_move m) set <= set_ll (mc_trace_prob_move m') set /\
  (forall tr t, In (tr, t) set -> (0 < mc_trace_prob_move m tr <-> 0 < mc_trace_prob_move m' tr)).
Proof.
  intros [W N] S1 HT E. destruct (round_MC_spec m W set N (proj2 (proj2 (proj2 W))) p m' ll E) as (A & B & C & D & Sq & G & L & _).
  destruct (mc_em_mono m W set N (proj2 (proj2 (proj2 W))) HT m' A D G S1) as [M1 M2].
  rewrite (set_ll_ext _ _ set (fun tr t _ => mcP_path m tr)) in L, M1.
  rewrite (set_ll_ext _ _ set (fun tr t _ => ws_lab m m' D B tr)) in M1.
  split; [exact L|]. split; [exact M1|]. intros tr t I. rewrite <- mcP_path, <- (ws_lab m m' D B). exact (M2 tr t I).
Qed.

(** One round, for chains whose rows sum to at most 1: the value reported is the
    likelihood of the model before the round, and the likelihood does not
    decrease; traces stay possible. *)
Theorem C38_mc_round_likelihood : forall (m m' : mc R) (p : nat) (set : list (list string * Z)) (ll : R),
  wf_mc m -> substochastic (mc_mat m) -> pos_times set -> round_MC p set m = Ok (m', ll) ->
  ll = set_ll (mc_trace_prob_move m) set /\
  set_ll (mc_trace_prob_move m) set <= set_ll (mc_trace_prob_move m') set /\
  (forall tr t, In (tr, t) set -> (0 < mc_trace_prob_move m tr <-> 0 < mc_trace_prob_move m' tr)).
Proof. intros m m' p set ll W [N S1] HT E. apply (round_mc_mono m set p m' ll); auto. split; assumption. Qed.
Print Assumptions C38_mc_round_likelihood.

(** The whole run, in terms of the library's own likelihood function. *)
Lemma move_trace (m : mc R) tr : wf_mc m -> (forall r, In r (mc_mat m) -> rsum r = 1) -> tr <> [] -> mc_trace_prob_move m tr = mc_trace_prob m tr.
Proof.
  intros W S1 NE. unfold mc_trace_prob_move, mc_trace_prob. apply trace_prob_move_eq; [exact NE|]. apply row_sums; [apply W|exact S1].
Qed.
Theorem C38_mc_fit_improves_logLikelihood : forall (m m' : mc R) (p max_it c : nat) (s : tset (list string)) (eps : R) ll stopped,
  wf_mc m -> stochastic (mc_mat m) -> usable s ->
  bw_loop (round_MC p (weighted s)) eps max_it None 0 m = Ok (m', c, ll, stopped) ->
  exists v v', mc_logLikelihood m s = Ok v /\ mc_logLikelihood m' s = Ok v' /\ v <= v'.
Proof.
  intros m m' p mx c s eps ll st W [N S1] U E.
  assert (HT : pos_times (weighted s)).
  { intros [tr t] I. apply in_combine_r in I. destruct U as [_ [Po _]]. specialize (Po t I). cbn. lia. }
  assert (H : (mc_ok m' /\ forall r, In r (mc_mat m') -> rsum r = 1) /\ set_ll (mc_trace_prob_move m) (weighted s) <= set_ll (mc_trace_prob_move m') (weighted s)).
  { apply (bw_loop_mono _ _ (fun x => mc_ok x /\ forall r, In r (mc_mat x) -> rsum r = 1) (fun x => set_ll (mc_trace_prob_move x) (weighted s))) in E; auto.
    - intros x x' l [Ok1 S'] Er. split; [split|].
      + apply (round_mc_ok x _ p x' l Ok1 Er HT).
      + apply (row_rule x _ p x' l (fun v => v = 1) Ok1 Er); auto.
      + apply (round_mc_mono x (weighted s) p x' l Ok1); auto. intros r I. rewrite (S' r I). lra.
    - repeat split; auto; apply W. }
  destruct H as [[[W' N'] S'] M].
  exists (avg_ll (mc_trace_prob m) (weighted s)), (avg_ll (mc_trace_prob m') (weighted s)).
  split; [apply C27_mc_logLikelihood; assumption|]. split; [apply C27_mc_logLikelihood; assumption|].
  assert (Ne : forall tr t, In (tr, t) (weighted s) -> tr <> []).
  { intros tr t I Z. subst. apply in_combine_l in I. destruct U as [_ [_ Ne]]. contradiction. }
  rewrite (set_ll_ext (mc_trace_prob_move m) (mc_trace_prob m)) in M by (intros tr t I; apply move_trace; eauto).
  rewrite (set_ll_ext (mc_trace_prob_move m') (mc_trace_prob m')) in M by (intros tr t I; apply move_trace; eauto).
  unfold avg_ll. unfold Rdiv. apply Rmult_le_compat_r; [|exact M].
  set (z := zsum (map snd (weighted s))). assert (0 <= z)%Z.
  { unfold z, weighted. rewrite map_snd_combine by apply U. destruct U as [_ [Po _]]. unfold pos_set in Po.
    clear - Po. induction (times s) as [|t ts IH]; cbn; [lia|]. specialize (IH (fun u I => Po u (or_intror I))). specialize (Po t (or_introl eq_refl)). lia. }
  destruct (Z.eq_dec z 0) as [->|]; [rewrite Rinv_0; lra|]. left. apply Rinv_0_lt_compat. apply IZR_lt. lia.
Qed.
Print Assumptions C38_mc_fit_improves_logLikelihood.

(** ** C42 *)

Lemma mc_move_le1 (m : mc R) tr : wf_mc m -> substochastic (mc_mat m) -> rsum (mc_ini m) <= 1 -> 0 <= mc_trace_prob_move m tr <= 1.
Proof.
  intros W [N S1] Si. unfold mc_trace_prob_move.
  set (B := fun (o : option string) s => match o with Some x => is_label (mc_lab m) x s | None => 1 end).
  assert (E : map (is_label (mc_lab m)) tr ++ [fun _ : nat => 1] = map B (map Some tr ++ [None])) by (rewrite map_app, map_map; reflexivity).
  rewrite E.
  assert (HB : forall o s, (s < mc_n m)%nat -> 0 <= B o s <= 1) by (intros [o|] s _; cbn; [apply is_label_01|lra]).
  assert (HA : Forall (okw (mc_n m)) (repeat (matR (mc_mat m)) (length tr))).
  { apply Forall_forall. intros A I. apply repeat_spec in I. subst. intros i j _ _. apply matR_nonneg; exact N. }
  assert (HL : length (map Some tr ++ [None]) = S (length (repeat (matR (mc_mat m)) (length tr)))).
  { rewrite app_length, map_length, repeat_length. cbn. lia. }
  assert (Hi : okf (mc_n m) (vecR (mc_ini m))) by (intros i _; apply vecR_nonneg; apply W).
  split.
  - apply trace_prob_nonneg; auto. intros; apply HB; assumption.
  - apply trace_prob_le1; auto.
    + apply Forall_forall. intros A I. apply repeat_spec in I. subst. intros s Hs.
      destruct W as [[L Lr] _]. rewrite <- (Lr (nth s (mc_mat m) [])) by (apply nth_In; lia).
      unfold matR. rewrite <- rsum_nth. apply S1, nth_In. lia.
    + destruct W as [_ [_ [Li _]]]. rewrite <- Li. unfold vecR. rewrite <- rsum_nth. exact Si.
Qed.
Lemma set_ll_nonpos {T} (prob : T -> R) set : (forall x t, In (x, t) set -> prob x <= 1) -> pos_times set -> set_ll prob set <= 0.
Proof.
  intros H HT. unfold set_ll. apply Rle_trans with (sumL set (fun _ => 0)); [|rewrite sumL_zero; lra]. apply sumL_le. intros [x t] I. cbn [fst snd].
  destruct (Rlt_dec 0 (prob x)) as [P|]; [|lra]. specialize (H x t I). specialize (HT (x, t) I). cbn in HT. apply IZR_lt in HT.
  assert (ln (prob x) <= 0). { destruct H as [Lt|Eq]; [pose proof (ln_increasing _ _ P Lt) as Li; rewrite ln_1 in Li; lra|rewrite Eq, ln_1; lra]. }
  nra.
Qed.

(** When a round succeeds. *)
Lemma round_mc_succeeds m set p : mc_ok m ->
  (exists tr t, In (tr, t) set /\ 0 < mc_trace_prob_move m tr) ->
  ((1 < p)%nat \/ forall tr t, In (tr, t) set -> 0 < mc_trace_prob_move m tr) ->
  exists m' ll, round_MC p set m = Ok (m', ll).
Proof.
  intros [W N] [tr0 [t0 [I0 P0]]] Hp. unfold round_MC, update_MC.
  assert (U : unwrap (runProcesses p (processWork_MC m) set) = Ok (goods (processWork_MC m) set)).
  { destruct Hp as [Hp|Hp]; [apply unwrap_run_many; exact Hp|]. destruct (Nat.lt_ge_cases 1 p) as [L|L]; [apply unwrap_run_many; exact L|].
    apply unwrap_run_one; [exact L|]. intros [tr t] I. cbn [fst snd]. rewrite (pw_mc m W). rewrite mcP_path.
    specialize (Hp tr t I). destruct (Req_EM_T _ 0); [lra|discriminate]. }
  rewrite U. cbn [bind]. destruct (goods (processWork_MC m) set) eqn:G.
  - exfalso. assert (G0 : exists st, processWork_MC m tr0 t0 = Some st).
    { rewrite (pw_mc m W), mcP_path. destruct (Req_EM_T _ 0); [lra|eauto]. }
    destruct G0 as [st Est]. assert (In st (goods (processWork_MC m) set)) by (apply In_goods; exists (tr0, t0); auto). rewrite G in H. destruct H.
  - eauto.
Qed.

(** C42: with epsilon > 0 the loop stops by itself; N rounds after the first one
    are enough as soon as N*epsilon exceeds minus the initial log-likelihood. *)
Theorem C42_mc_terminates : forall (m : mc R) (p : nat) (set : list (list string * Z)) (eps : R) (N : nat),
  wf_mc m -> substochastic (mc_mat m) -> rsum (mc_ini m) <= 1 -> pos_times set -> 0 < eps ->
  (exists tr t, In (tr, t) set /\ 0 < mc_trace_prob_move m tr) ->
  ((1 < p)%nat \/ forall tr t, In (tr, t) set -> 0 < mc_trace_prob_move m tr) ->
  - set_ll (mc_trace_prob_move m) set < INR N * eps ->
  exists m' c ll, (c <= S N)%nat /\
    forall max_it, (S N <= max_it)%nat -> bw_loop (round_MC p set) eps max_it None 0 m = Ok (m', c, Some ll, true).
Proof.
  intros m p set eps N W [Nn S1] Si HT He Hex Hp HN.
  destruct (bw_terminates (round_MC p set) eps
     (fun x => (mc_ok x /\ (forall r, In r (mc_mat x) -> rsum r <= 1)) /\ rsum (mc_ini x) <= 1 /\
               (exists tr t, In (tr, t) set /\ 0 < mc_trace_prob_move x tr) /\
               ((1 < p)%nat \/ forall tr t, In (tr, t) set -> 0 < mc_trace_prob_move x tr))
     (fun x => set_ll (mc_trace_prob_move x) set) He) with (N := N) (m := m) as [m' [c [ll [E Hc]]]].
  - intros x [[Ok1 S'] [Si' [Hex' Hp']]]. split.
    + apply set_ll_nonpos; [|exact HT]. intros tr t I. apply mc_move_le1; [apply Ok1|split; [apply Ok1|exact S']|exact Si'].
    + destruct (round_mc_succeeds x set p Ok1 Hex' Hp') as [x' [l Er]].
      destruct (round_mc_mono x set p x' l Ok1 S' HT Er) as [-> [_ Ps]]. exists x'. split; [exact Er|].
      destruct (round_mc_ok x set p x' _ Ok1 Er HT) as [Ok2 [A [B [C _]]]].
      split; [split; [exact Ok2|]|].
      * apply (row_rule x set p x' _ (fun v => v <= 1) Ok1 Er); [lra|exact S'].
      * split; [rewrite C; exact Si'|]. split.
        -- destruct Hex' as [tr [t [I P]]]. exists tr, t. split; [exact I|]. apply (Ps tr t I). exact P.
        -- destruct Hp' as [L|L]; [left; exact L|right]. intros tr t I. apply (Ps tr t I). exact (L tr t I).
  - repeat split; auto; apply W.
  - exact HN.
  - exists m', c, ll. split; [exact Hc|]. intros mx Hmx. replace mx with (S N + (mx - S N))%nat by lia. apply bw_loop_more. exact E.
Qed.
Print Assumptions C42_mc_terminates.

(** With a bound on the number of rounds it is never exceeded, whatever the
    model class ([round] is any round function). *)
Theorem C42_max_it : forall (M : Type) (round : M -> res (M * R)) (eps : R) (max_it c : nat) (m m' : M) ll stopped,
  bw_loop round eps max_it None 0 m = Ok (m', c, ll, stopped) ->
  (c <= max_it)%nat /\ (stopped = false -> c = max_it).
Proof.
  intros M round eps mx c m m' ll st E. apply bw_loop_count in E. exact E.
Qed.
Print Assumptions C42_max_it.

(** The hypotheses hold for the example chain and set. *)
Example C34_C37_C38_C42_instance : wf_mc ex_mc /\ stochastic (mc_mat ex_mc) /\ pos_times (weighted ex_set) /\ usable ex_set /\
  (forall tr t, In (tr, t) (weighted ex_set) -> 0 < mc_trace_prob_move ex_mc tr) /\
  (exists m' ll, round_MC 1 (weighted ex_set) ex_mc = Ok (m', ll)) /\
  matR (mc_mat ex_mc) 1 0 = 0 /\ matR (mc_mat ex_mc) 2 0 <> 0.
Proof.
  assert (P : forall tr t, In (tr, t) (weighted ex_set) -> 0 < mc_trace_prob_move ex_mc tr).
  { intros tr t [E|[E|[]]]; inversion E; subst; unfold mc_trace_prob_move, trace_prob, sumL; cbn; lra. }
  split; [exact ex_mc_wf|]. split; [exact ex_mc_stoch|]. split.
  { intros st [<-|[<-|[]]]; cbn; lia. }
  split; [apply C27_instance|]. split; [exact P|]. split.
  - apply round_mc_succeeds; [split; [exact ex_mc_wf|apply ex_mc_stoch]| |right; exact P].
    exists ["init"; "b"]%string, 1%Z. split; [right; left; reflexivity|]. apply (P _ 1%Z). right; left; reflexivity.
  - split; unfold matR; cbn; lra.
Qed.
