(** C156: learning from a set with exactly the frequencies of the model gives the
    model back. *)
From Coq Require Import String ZArith Bool Reals Lra Lia List.
From Verif Require Import Num Py SNum SPath LSum MSet SSet LSet MModels MLik MBW LFB LEM SBW LBW LBWSet LBWMC SLik LPath LLik LLik2 LBWLoop LBWPath SExp LEMGen LBWHMM PLik LFit PBWMC PBWHMM SGain LGain LGibbs LPLearn3 PRace SExact LExact.
Import ListNotations.
Local Open Scope R_scope.

(** ** Expected counts in an exact set *)
Section Counts.
  Context {W : Type} (dec : forall a b : W, {a = b} + {a <> b}).
  Variables (n : nat) (A : nat -> nat -> R) (B : W -> nat -> R) (alph : list W) (a : nat -> R).
  Hypothesis ND : NoDup alph.
  Hypothesis HA : forall s, (s < n)%nat -> Sum n (A s) = 1.
  Hypothesis HB : forall s, (s < n)%nat -> sumL alph (fun o => B o s) = 1.
  Hypothesis NA : forall s s', (s < n)%nat -> (s' < n)%nat -> 0 <= A s s'.
  Hypothesis NB : forall o s, (s < n)%nat -> 0 <= B o s.
  Hypothesis UB : forall o s, (s < n)%nat -> ~ In o alph -> B o s = 0.
  Hypothesis Na : forall i, (i < n)%nat -> 0 <= a i.
  Variables (P : list W -> R) (set : list (list W * Z)).
  Hypothesis HP : forall tr, tr <> [] -> P tr = tp n A B a tr.
  Hypothesis HE : exact_set P set.

  Lemma exact_counts : exists v : nat -> R,
    (forall s, (s < n)%nat -> set_expected (tp n A B a) (ex n A B a (fun _ => on_leave s 1)) set = v s) /\
    (forall s s', (s < n)%nat -> (s' < n)%nat -> set_expected (tp n A B a) (ex n A B a (fun _ => on_move s s' 1)) set = v s * A s s') /\
    (forall s (h : W -> R), (s < n)%nat -> set_expected (tp n A B a) (ex n A B a (fun o => on_leave s (h o))) set = v s * sumL alph (fun o => B o s * h o)).
  Proof.
    destruct (exact_sums dec n A B alph ND NA NB UB a Na P set HP HE) as (Ts & c & _ & _ & X).
    exists (fun s => sumL Ts (fun T => c T * visits n A T a s)).
    assert (G : forall s s' (h : W -> R), (s < n)%nat -> (s' < n)%nat -> set_expected (tp n A B a) (ex n A B a (fun o => on_move s s' (h o))) set = sumL Ts (fun T => c T * visits n A T a s) * (A s s' * sumL alph (fun o => B o s * h o))).
    { intros s s' h Ls Ls'. rewrite X by (intros tr; apply tp_zero_ex; assumption). rewrite <- sumL_scal_r. apply sumL_ext. intros T _. rewrite Rmult_assoc. f_equal.
      rewrite (ex_words n A B alph HA HB). rewrite (Sum_ext n _ (fun i => if Nat.eqb i s then visits n A T a i * (A i s' * sumL alph (fun o => B o i * h o)) else 0)).
      - rewrite Sum_indicator_in by exact Ls. reflexivity.
      - intros i Li. destruct (Nat.eqb_spec i s) as [->|Q].
        + f_equal. rewrite (Sum_ext n _ (fun j => if Nat.eqb j s' then A s j * sumL alph (fun o => B o s * h o) else 0)); [apply Sum_indicator_in, Ls'|].
          intros j _. unfold on_move. rewrite Nat.eqb_refl. destruct (Nat.eqb j s'); [reflexivity|]. rewrite sumL_zero_ext; [ring|]. intros; ring.
        + rewrite Sum_zero_ext; [ring|]. intros j _. unfold on_move. rewrite (proj2 (Nat.eqb_neq i s) Q). rewrite sumL_zero_ext; [ring|]. intros; ring. }
    assert (H : forall s (h : W -> R), (s < n)%nat -> set_expected (tp n A B a) (ex n A B a (fun o => on_leave s (h o))) set = sumL Ts (fun T => c T * visits n A T a s) * sumL alph (fun o => B o s * h o)).
    { intros s h Ls. rewrite X by (intros tr; apply tp_zero_ex; assumption). rewrite <- sumL_scal_r. apply sumL_ext. intros T _. rewrite Rmult_assoc. f_equal.
      rewrite (ex_words n A B alph HA HB). rewrite (Sum_ext n _ (fun i => if Nat.eqb i s then visits n A T a i * sumL alph (fun o => B o i * h o) else 0)).
      - rewrite Sum_indicator_in by exact Ls. reflexivity.
      - intros i Li. destruct (Nat.eqb_spec i s) as [->|Q].
        + f_equal. rewrite (Sum_ext n _ (fun j => A s j * sumL alph (fun o => B o s * h o))); [unfold Sum; rewrite sumL_scal_r; fold (Sum n (A s)); rewrite HA by exact Ls; ring|].
          intros j _. unfold on_leave. rewrite Nat.eqb_refl. reflexivity.
        + rewrite Sum_zero_ext; [ring|]. intros j _. unfold on_leave. rewrite (proj2 (Nat.eqb_neq i s) Q). rewrite sumL_zero_ext; [ring|]. intros; ring. }
    assert (H1 : forall s, (s < n)%nat -> sumL alph (fun o => B o s * 1) = 1) by (intros s Ls; rewrite sumL_scal_r, HB by exact Ls; ring).
    split; [|split].
    - intros s Ls. rewrite H by exact Ls. rewrite H1 by exact Ls. ring.
    - intros s s' Ls Ls'. rewrite G by assumption. rewrite H1 by exact Ls. ring.
    - exact H.
  Qed.
  Lemma exact_starts : set <> [] -> Sum n a = 1 -> exists v : R, v <> 0 /\
    forall s, (s < n)%nat -> set_expected (tp n A B a) (fun tr => tp n A B (fun i => if Nat.eqb i s then a i else 0) tr) set = v * a s.
  Proof.
    intros NE Sa. destruct (exact_sums dec n A B alph ND NA NB UB a Na P set HP HE) as (Ts & c & Pc & NT & X).
    exists (sumL Ts c). split.
    - specialize (NT NE). destruct Ts as [|T Ts]; [congruence|]. assert (0 < sumL (T :: Ts) c); [|lra]. apply (sumL_pos _ _ T); [intros b I; left; apply Pc, I|left; reflexivity|apply Pc; left; reflexivity].
    - intros s Ls. rewrite X.
      + rewrite <- sumL_scal_r. apply sumL_ext. intros T _. f_equal. rewrite (tp_words n A B alph HA HB). apply Sum_indicator_in, Ls.
      + intros tr Z. rewrite tp_hs in Z |- *. apply Sum_zero_ext. intros i Li. destruct (Nat.eqb i s); [|ring].
        assert (Hh : forall i, (i < n)%nat -> 0 <= a i * hs n A B tr i).
        { intros j Lj. apply Rmult_le_pos; [apply Na, Lj|]. unfold hs. apply sumL_nonneg. intros y I. apply paths_range in I as [_ Ry]. apply (pw_nonneg n A B NA NB). intros k [<-|K]; [exact Lj|apply Ry, K]. }
        refine (sumL_eq0 (seq 0 n) _ _ Z i _); [|apply in_seq; lia]. intros k K. apply in_seq in K. apply Hh. lia.
  Qed.
End Counts.

(** ** HMM *)
Lemma hmm_exact_round (m m' : hmm R) p set ll : wf_hmm m -> stochastic (hmm_mat m) -> stochastic (hmm_out m) -> rsum (hmm_ini m) = 1 -> set <> [] -> exact_set (hmm_trace_prob m) set ->
  round_HMM p set m = Ok (m', ll) -> m' = m.
Proof.
  intros W [Nm Sm] [No So] Si NE HE Er.
  assert (NN : nonneg_hmm m) by (split; assumption).
  assert (HT : pos_times set) by (intros [tr t] I; apply HE in I; apply I).
  destruct (round_hmm_ok m set p m' ll (conj W NN) Er HT) as ((W' & N') & En & Ea & Enm & _).
  destruct (C73_hmm_round_is_ratio_of_expectations m m' p set ll W NN Er) as (_ & _ & Sq & _ & G & H & I).
  pose proof W as (Sqm & Lo & Lr & NDa & Li & Ni).
  assert (HA : forall s, (s < hmm_n m)%nat -> Sum (hmm_n m) (matR (hmm_mat m) s) = 1) by (apply row_sums; [exact Sqm|exact Sm]).
  assert (HB : forall s, (s < hmm_n m)%nat -> sumL (hmm_alph m) (fun o => emit m o s) = 1) by (intros s Hs; rewrite emit_total by assumption; apply So, nth_In; lia).
  assert (NA : forall s s', (s < hmm_n m)%nat -> (s' < hmm_n m)%nat -> 0 <= matR (hmm_mat m) s s') by (intros s s' L1 L2; apply (Nm (nth s (hmm_mat m) [])); [apply nth_In; rewrite (proj1 Sqm); exact L1|apply nth_In; rewrite (proj2 Sqm) by (apply nth_In; rewrite (proj1 Sqm); exact L1); exact L2]).
  assert (NB : forall o s, (s < hmm_n m)%nat -> 0 <= emit m o s) by (intros; apply emit_nonneg; exact No).
  assert (UB : forall o s, (s < hmm_n m)%nat -> ~ In o (hmm_alph m) -> emit m o s = 0) by (intros; apply emit_out; assumption).
  assert (Na : forall i, (i < hmm_n m)%nat -> 0 <= vecR (hmm_ini m) i) by (intros i L; apply Ni, nth_In; lia).
  assert (HP : forall tr, tr <> [] -> hmm_trace_prob m tr = tp (hmm_n m) (matR (hmm_mat m)) (emit m) (vecR (hmm_ini m)) tr) by (intros tr Q; symmetry; apply (hmm_move_trace m tr W Sm Q)).
  destruct (exact_counts String.string_dec (hmm_n m) (matR (hmm_mat m)) (emit m) (hmm_alph m) (vecR (hmm_ini m)) NDa HA HB NA NB UB Na (hmm_trace_prob m) set HP HE) as (v & V1 & V2 & V3).
  destruct (exact_starts String.string_dec (hmm_n m) (matR (hmm_mat m)) (emit m) (hmm_alph m) (vecR (hmm_ini m)) NDa HA HB NA NB UB Na (hmm_trace_prob m) set HP HE NE) as (w & Wn & W1).
  { rewrite <- Si, rsum_nth, Li. reflexivity. }
  assert (X1 : forall s, (s < hmm_n m)%nat -> set_expected (hmm_trace_prob_move m) (hmm_expected_visits m s) set = v s) by exact V1.
  assert (X2 : forall s s', (s < hmm_n m)%nat -> (s' < hmm_n m)%nat -> set_expected (hmm_trace_prob_move m) (hmm_expected_moves m s s') set = v s * matR (hmm_mat m) s s') by exact V2.
  assert (X3 : forall s o, (s < hmm_n m)%nat -> set_expected (hmm_trace_prob_move m) (hmm_expected_emissions m s o) set = v s * sumL (hmm_alph m) (fun o' => emit m o' s * ind (String.eqb o' o))) by (intros s o Ls; exact (V3 s (fun x => ind (String.eqb x o)) Ls)).
  assert (D : forall v' x : R, v' <> 0 -> v' * x / v' = x) by (intros; field; assumption).
  destruct m as [M O al ini nm], m' as [M' O' al' ini' nm']. unfold hmm_n in *. cbn [hmm_mat hmm_out hmm_alph hmm_ini hmm_name] in *. subst al' nm'. f_equal.
  - apply (mat_ext (length M)); [exact Sq|exact Sqm|]. intros s s' Ls Ls'. rewrite G by assumption. destruct (Req_EM_T _ 0) as [|Q]; [reflexivity|].
    cbv zeta in Q |- *. rewrite X1 in Q |- * by exact Ls. rewrite X2 by assumption. apply D, Q.
  - apply (nth_ext _ _ [] []); [destruct W' as (_ & L' & _); unfold hmm_n in L'; cbn in L'; congruence|]. intros s Ls.
    destruct W' as (_ & L' & Lr' & _). unfold hmm_n in *. cbn in L', Lr'. rewrite L', En in Ls.
    apply (nth_ext _ _ 0 0); [rewrite Lr', Lr; [reflexivity|apply nth_In; lia|apply nth_In; lia]|]. intros j Lj. rewrite Lr' in Lj by (apply nth_In; lia).
    change (matR O' s j = matR O s j). rewrite H by assumption. destruct (Req_EM_T _ 0) as [|Q]; [reflexivity|].
    cbv zeta in Q |- *. rewrite X1 in Q |- * by exact Ls. rewrite X3 by assumption. cbn [hmm_alph]. rewrite <- (D (v s) (matR O s j) Q). f_equal. f_equal.
    pose proof (emit_nth (mkHMM M O al ini nm) j s NDa Lj) as En'. cbn [hmm_alph hmm_out] in En'. rewrite <- En'.
    pose proof (sumL_sub String.string_dec [nth j al EmptyString] al (fun o => emit (mkHMM M O al ini nm) o s * ind (String.eqb o (nth j al EmptyString)))) as K. rewrite <- K.
    + rewrite sumL_cons, sumL_nil, String.eqb_refl. unfold ind. ring.
    + repeat constructor. intros [].
    + exact NDa.
    + intros y [<-|[]]. apply nth_In, Lj.
    + intros y _ Ny. destruct (String.eqb_spec y (nth j al EmptyString)) as [->|]; [exfalso; apply Ny; left; reflexivity|]. unfold ind. ring.
  - destruct W' as (_ & _ & _ & _ & L' & _). unfold hmm_n in L'. cbn in L'. apply (nth_ext _ _ 0 0); [congruence|]. intros s Ls. rewrite L', En in Ls. change (vecR ini' s = vecR ini s). rewrite I by exact Ls.
    assert (X : forall i, (i < length M)%nat -> set_expected (hmm_trace_prob_move (mkHMM M O al ini nm)) (hmm_expected_starts (mkHMM M O al ini nm) i) set = w * vecR ini i) by exact W1.
    rewrite X by exact Ls. rewrite (Sum_ext _ _ (fun i => w * vecR ini i)) by exact X. rewrite Sum_scal_l.
    assert (E : Sum (length M) (vecR ini) = 1) by (rewrite <- Si, rsum_nth, Li; reflexivity). rewrite E. field. exact Wn.
Qed.

(** ** MC *)
Lemma label_total (labs : list string) s : (s < length labs)%nat -> sumL (nodup String.string_dec labs) (fun o => is_label labs o s) = 1.
Proof.
  intros L. rewrite <- (sumL_sub String.string_dec [nth s labs EmptyString]).
  - rewrite sumL_cons, sumL_nil. unfold is_label. rewrite String.eqb_refl. ring.
  - repeat constructor. intros [].
  - apply NoDup_nodup.
  - intros y [<-|[]]. apply nodup_In, nth_In, L.
  - intros y _ N. unfold is_label. destruct (String.eqb_spec (nth s labs EmptyString) y) as [E|]; [exfalso; apply N; left; exact E|reflexivity].
Qed.
Lemma mc_exact_round (m m' : mc R) p set ll : wf_mc m -> stochastic (mc_mat m) -> exact_set (mc_trace_prob m) set ->
  round_MC p set m = Ok (m', ll) -> m' = m.
Proof.
  intros W [Nm Sm] HE Er.
  destruct (C73_mc_round_is_ratio_of_expectations m m' p set ll W Nm Er) as (El & Ei & Enm & Sq & _ & G).
  pose proof W as (Sqm & Lo & Li & Ni).
  assert (HA : forall s, (s < mc_n m)%nat -> Sum (mc_n m) (matR (mc_mat m) s) = 1) by (apply row_sums; [exact Sqm|exact Sm]).
  assert (HB : forall s, (s < mc_n m)%nat -> sumL (nodup String.string_dec (mc_lab m)) (fun o => is_label (mc_lab m) o s) = 1) by (intros s Hs; apply label_total; lia).
  assert (NA : forall s s', (s < mc_n m)%nat -> (s' < mc_n m)%nat -> 0 <= matR (mc_mat m) s s') by (intros s s' L1 L2; apply (Nm (nth s (mc_mat m) [])); [apply nth_In; rewrite (proj1 Sqm); exact L1|apply nth_In; rewrite (proj2 Sqm) by (apply nth_In; rewrite (proj1 Sqm); exact L1); exact L2]).
  assert (NB : forall o s, (s < mc_n m)%nat -> 0 <= is_label (mc_lab m) o s) by (intros o s _; unfold is_label; destruct (String.eqb _ _); lra).
  assert (Na : forall i, (i < mc_n m)%nat -> 0 <= vecR (mc_ini m) i) by (intros i L; apply Ni, nth_In; lia).
  assert (HP : forall tr, tr <> [] -> mc_trace_prob m tr = tp (mc_n m) (matR (mc_mat m)) (is_label (mc_lab m)) (vecR (mc_ini m)) tr) by (intros tr Q; symmetry; apply (move_trace m tr W Sm Q)).
  assert (UB : forall o s, (s < mc_n m)%nat -> ~ In o (nodup String.string_dec (mc_lab m)) -> is_label (mc_lab m) o s = 0).
  { intros o s Ls N. unfold is_label. destruct (String.eqb_spec (nth s (mc_lab m) EmptyString) o) as [E|]; [|reflexivity]. exfalso. apply N, nodup_In. rewrite <- E. apply nth_In. lia. }
  destruct (exact_counts String.string_dec (mc_n m) (matR (mc_mat m)) (is_label (mc_lab m)) (nodup String.string_dec (mc_lab m)) (vecR (mc_ini m)) (NoDup_nodup _ _) HA HB NA NB UB Na (mc_trace_prob m) set HP HE) as (v & V1 & V2 & _).
  assert (X1 : forall s, (s < mc_n m)%nat -> set_expected (mc_trace_prob_move m) (mc_expected_visits m s) set = v s) by exact V1.
  assert (X2 : forall s s', (s < mc_n m)%nat -> (s' < mc_n m)%nat -> set_expected (mc_trace_prob_move m) (mc_expected_moves m s s') set = v s * matR (mc_mat m) s s') by exact V2.
  assert (EM : mc_mat m' = mc_mat m).
  { apply (mat_ext (mc_n m)); [exact Sq|exact Sqm|]. intros s s' Ls Ls'. rewrite G by assumption. cbv zeta. rewrite X1 by exact Ls. rewrite X2 by assumption. destruct (Req_EM_T (v s) 0); [reflexivity|field; assumption]. }
  destruct m, m'. cbn in *. congruence.
Qed.

(** ** Theorems *)

(** The loop stops at the first model if the model does not change. *)
Lemma fixed_loop {M} (round : M -> res (M * R)) eps (m : M) ll : round m = Ok (m, ll) -> 0 < eps ->
  forall max_it, (2 <= max_it)%nat -> bw_loop round eps max_it None 0 m = Ok (m, 2%nat, Some ll, true).
Proof.
  intros E P max_it L. destruct max_it as [|[|k]]; try lia. cbn [bw_loop]. rewrite E. cbn [bind]. rewrite E. cbn [bind]. rewrite (proj2 (Rltb_true _ _)); [reflexivity|]. nR. lra.
Qed.

(** Learning a Markov chain from a set whose frequencies are exactly its own: each
    round returns the chain itself, with the log-likelihood of the set, and fit
    stops after two rounds. *)
Theorem C156_mc_exact_frequencies : forall (m : mc R) (p : nat) (set : list (list string * Z)),
  wf_mc m -> stochastic (mc_mat m) -> set <> [] -> exact_set (mc_trace_prob m) set ->
  round_MC p set m = Ok (m, set_ll (mc_trace_prob m) set) /\
  forall eps max_it, 0 < eps -> (2 <= max_it)%nat -> bw_loop (round_MC p set) eps max_it None 0 m = Ok (m, 2%nat, Some (set_ll (mc_trace_prob m) set), true).
Proof.
  intros m p set W S NE HE. assert (Pp : forall tr t, In (tr, t) set -> 0 < mc_trace_prob_move m tr).
  { intros tr t I. destruct HE as (_ & Q & _). destruct (Q tr t I) as (Q1 & _ & Q2). rewrite (move_trace m tr W (proj2 S) Q1). exact Q2. }
  destruct (round_mc_succeeds m set p) as (m' & ll & E); [split; [exact W|apply S]| |right; exact Pp|].
  { destruct set as [|[tr t] set]; [congruence|]. exists tr, t. split; [left; reflexivity|]. apply (Pp tr t). left; reflexivity. }
  pose proof (mc_exact_round m m' p set ll W S HE E) as ->.
  assert (L : ll = set_ll (mc_trace_prob m) set).
  { destruct (C73_mc_round_is_ratio_of_expectations m m p set ll W (proj1 S) E) as (_ & _ & _ & _ & -> & _). unfold set_ll. apply sumL_ext. intros [tr t] I. cbn [fst snd].
    destruct HE as (_ & Q & _). destruct (Q tr t I) as (Q1 & _). rewrite (move_trace m tr W (proj2 S) Q1). reflexivity. }
  rewrite <- L. split; [exact E|]. intros eps mx P K. apply fixed_loop; assumption.
Qed.
Print Assumptions C156_mc_exact_frequencies.

Theorem C156_hmm_exact_frequencies : forall (m : hmm R) (p : nat) (set : list (list string * Z)),
  wf_hmm m -> stochastic (hmm_mat m) -> stochastic (hmm_out m) -> rsum (hmm_ini m) = 1 -> set <> [] -> exact_set (hmm_trace_prob m) set ->
  round_HMM p set m = Ok (m, set_ll (hmm_trace_prob m) set) /\
  forall eps max_it, 0 < eps -> (2 <= max_it)%nat -> bw_loop (round_HMM p set) eps max_it None 0 m = Ok (m, 2%nat, Some (set_ll (hmm_trace_prob m) set), true).
Proof.
  intros m p set W S So Si NE HE. assert (NN : nonneg_hmm m) by (split; [apply S|apply So]). assert (Pp : forall tr t, In (tr, t) set -> 0 < hmm_trace_prob_move m tr).
  { intros tr t I. destruct HE as (_ & Q & _). destruct (Q tr t I) as (Q1 & _ & Q2). rewrite (hmm_move_trace m tr W (proj2 S) Q1). exact Q2. }
  destruct (round_hmm_succeeds m set p) as (m' & ll & E); [split; assumption| |right; exact Pp|].
  { destruct set as [|[tr t] set]; [congruence|]. exists tr, t. split; [left; reflexivity|]. apply (Pp tr t). left; reflexivity. }
  pose proof (hmm_exact_round m m' p set ll W S So Si NE HE E) as ->.
  assert (L : ll = set_ll (hmm_trace_prob m) set).
  { destruct (C73_hmm_round_is_ratio_of_expectations m m p set ll W NN E) as (_ & _ & _ & -> & _). unfold set_ll. apply sumL_ext. intros [tr t] I. cbn [fst snd].
    destruct HE as (_ & Q & _). destruct (Q tr t I) as (Q1 & _). rewrite (hmm_move_trace m tr W (proj2 S) Q1). reflexivity. }
  rewrite <- L. split; [exact E|]. intros eps mx P K. apply fixed_loop; assumption.
Qed.
Print Assumptions C156_hmm_exact_frequencies.

(** Non-vacuity: a chain that waits in x or moves to y for ever; all its traces of
    length 3 (x x x, x x y, x y y with probabilities 1/4, 1/4, 1/2), and the two of
    length 2. *)
Definition xt_mc : mc R := mkMC [[1/2; 1/2]; [0; 1]] ["x"; "y"]%string [1; 0] "e"%string.
Definition xt_set : list (list string * Z) := [(["x"; "x"; "x"], 1%Z); (["x"; "x"; "y"], 1%Z); (["x"; "y"; "y"], 2%Z); (["x"; "y"], 3%Z); (["x"; "x"], 3%Z)]%string.
Definition xt_hmm : hmm R := mkHMM [[1/2; 1/2]; [0; 1]] [[1/2; 1/2]; [0; 1]] ["x"; "y"]%string [1; 0] "e"%string.
Definition xt_hset : list (list string * Z) := [(["x"], 5%Z); (["y"], 5%Z); (["x"; "x"], 1%Z); (["x"; "y"], 3%Z); (["y"; "x"], 1%Z); (["y"; "y"], 3%Z)]%string.
Ltac xtr := unfold mc_trace_prob, hmm_trace_prob, trace_prob, sumL, is_label, emit, Sum, sumL, matR, vecR; cbn; lra.
Lemma xt_exact : exact_set (mc_trace_prob xt_mc) xt_set.
Proof.
  assert (P1 : mc_trace_prob xt_mc ["x"; "x"; "x"]%string = 1/4) by xtr. assert (P2 : mc_trace_prob xt_mc ["x"; "x"; "y"]%string = 1/4) by xtr.
  assert (P3 : mc_trace_prob xt_mc ["x"; "y"; "y"]%string = 1/2) by xtr. assert (P4 : mc_trace_prob xt_mc ["x"; "y"]%string = 1/2) by xtr. assert (P5 : mc_trace_prob xt_mc ["x"; "x"]%string = 1/2) by xtr.
  split; [|split; [|split]].
  - repeat constructor; cbn; intuition discriminate.
  - intros tr t I. cbn in I. repeat (destruct I as [I|I]; [injection I as <- <-; (split; [discriminate|]; split; [lia|]); lra|]). destruct I.
  - intros tr t tr' I L Pp.
    assert (U : forall tr o, In o tr -> o <> "x"%string -> o <> "y"%string -> mc_trace_prob xt_mc tr = 0).
    { intros w o Io N1 N2. rewrite <- (move_trace xt_mc w); [| |intros r [<-|[<-|[]]]; cbn; lra|destruct w; [destruct Io|discriminate]].
      - apply (tp_unknown (mc_n xt_mc) (matR (mc_mat xt_mc)) (is_label (mc_lab xt_mc)) ["x"; "y"]%string) with (o := o); [|exact Io|intros [<-|[<-|[]]]; congruence].
        intros o' s Ls No. unfold is_label. destruct (String.eqb_spec (nth s (mc_lab xt_mc) EmptyString) o') as [E|]; [|reflexivity]. exfalso. apply No. rewrite <- E. apply (nth_In (mc_lab xt_mc)). exact Ls.
      - unfold wf_mc, square, mc_n; cbn. repeat split; auto; [intros r [<-|[<-|[]]]; reflexivity|intros v [<-|[<-|[]]]; lra]. }
    assert (C : forall o, In o tr' -> o = "x"%string \/ o = "y"%string).
    { intros o Io. destruct (String.string_dec o "x") as [|N1]; [auto|]. destruct (String.string_dec o "y") as [|N2]; [auto|]. rewrite (U tr' o Io N1 N2) in Pp. lra. }
    assert (Len : length tr' = 3%nat \/ length tr' = 2%nat) by (cbn in I; intuition (match goal with H : (_, _) = (_, _) |- _ => injection H as <- <- end; cbn in L; auto)). clear I L U.
    destruct Len as [L|L]; destruct tr' as [|a [|b [|c [|? ?]]]]; try discriminate L.
    + destruct (C a) as [->| ->]; [cbn; auto| |]; destruct (C b) as [->| ->]; try (cbn; auto; fail); destruct (C c) as [->| ->]; try (cbn; auto; fail); try (exfalso; revert Pp; xtr); eexists; cbn; eauto 9.
    + destruct (C a) as [->| ->]; [cbn; auto| |]; destruct (C b) as [->| ->]; try (cbn; auto; fail); try (exfalso; revert Pp; xtr); eexists; cbn; eauto 9.
  - intros tr t tr' t' I I' L. cbn in I, I'. repeat (destruct I as [I|I]; [injection I as <- <-; repeat (destruct I' as [I'|I']; [injection I' as <- <-; try discriminate L; rewrite ?P1, ?P2, ?P3, ?P4, ?P5; lra|]); destruct I'|]). destruct I.
Qed.
Example C156_mc_instance : wf_mc xt_mc /\ stochastic (mc_mat xt_mc) /\ xt_set <> [] /\ exact_set (mc_trace_prob xt_mc) xt_set.
Proof.
  split; [|split; [|split; [discriminate|exact xt_exact]]].
  - unfold wf_mc, square, mc_n; cbn. repeat split; auto; [intros r [<-|[<-|[]]]; reflexivity|intros v [<-|[<-|[]]]; lra].
  - split; intros r [<-|[<-|[]]]; [| |cbn; lra|cbn; lra]; intros v [<-|[<-|[]]]; lra.
Qed.

Lemma xt_hwf : wf_hmm xt_hmm.
Proof.
  unfold wf_hmm, square, hmm_n; cbn. repeat split; auto; try (intros r [<-|[<-|[]]]; reflexivity); [|intros v [<-|[<-|[]]]; lra].
  constructor; [intros [X|[]]; discriminate|]. constructor; [intros []|constructor].
Qed.
Lemma xt_hexact : exact_set (hmm_trace_prob xt_hmm) xt_hset.
Proof.
  assert (P1 : hmm_trace_prob xt_hmm ["x"]%string = 1/2) by xtr. assert (P2 : hmm_trace_prob xt_hmm ["y"]%string = 1/2) by xtr.
  assert (P3 : hmm_trace_prob xt_hmm ["x"; "x"]%string = 1/8) by xtr. assert (P4 : hmm_trace_prob xt_hmm ["x"; "y"]%string = 3/8) by xtr.
  assert (P5 : hmm_trace_prob xt_hmm ["y"; "x"]%string = 1/8) by xtr. assert (P6 : hmm_trace_prob xt_hmm ["y"; "y"]%string = 3/8) by xtr.
  split; [|split; [|split]].
  - repeat constructor; cbn; intuition discriminate.
  - intros tr t I. cbn in I. repeat (destruct I as [I|I]; [injection I as <- <-; (split; [discriminate|]; split; [lia|]); lra|]). destruct I.
  - intros tr t tr' I L Pp.
    assert (U : forall tr o, In o tr -> o <> "x"%string -> o <> "y"%string -> hmm_trace_prob xt_hmm tr = 0).
    { intros w o Io N1 N2. rewrite <- (hmm_move_trace xt_hmm w xt_hwf); [|intros r [<-|[<-|[]]]; cbn; lra|destruct w; [destruct Io|discriminate]].
      apply (tp_unknown (hmm_n xt_hmm) (matR (hmm_mat xt_hmm)) (emit xt_hmm) (hmm_alph xt_hmm)) with (o := o); [|exact Io|intros [<-|[<-|[]]]; congruence]. intros o' s _ No. apply emit_out, No. }
    assert (C : forall o, In o tr' -> o = "x"%string \/ o = "y"%string).
    { intros o Io. destruct (String.string_dec o "x") as [|N1]; [auto|]. destruct (String.string_dec o "y") as [|N2]; [auto|]. rewrite (U tr' o Io N1 N2) in Pp. lra. }
    assert (Len : length tr' = 1%nat \/ length tr' = 2%nat) by (cbn in I; intuition (match goal with H : (_, _) = (_, _) |- _ => injection H as <- <- end; cbn in L; auto)). clear I L U.
    destruct Len as [L|L]; destruct tr' as [|a [|b [|? ?]]]; try discriminate L.
    + destruct (C a) as [->| ->]; [cbn; auto| |]; eexists; cbn; eauto 9.
    + destruct (C a) as [->| ->]; [cbn; auto| |]; destruct (C b) as [->| ->]; try (cbn; auto; fail); eexists; cbn; eauto 9.
  - intros tr t tr' t' I I' L. cbn in I, I'. repeat (destruct I as [I|I]; [injection I as <- <-; repeat (destruct I' as [I'|I']; [injection I' as <- <-; try discriminate L; rewrite ?P1, ?P2, ?P3, ?P4, ?P5, ?P6; lra|]); destruct I'|]). destruct I.
Qed.
Example C156_hmm_instance : wf_hmm xt_hmm /\ stochastic (hmm_mat xt_hmm) /\ stochastic (hmm_out xt_hmm) /\ rsum (hmm_ini xt_hmm) = 1 /\ xt_hset <> [] /\ exact_set (hmm_trace_prob xt_hmm) xt_hset.
Proof.
  split; [exact xt_hwf|]. split; [|split; [|split; [cbn; lra|split; [discriminate|exact xt_hexact]]]]; (split; intros r [<-|[<-|[]]]; [| |cbn; lra|cbn; lra]; intros v [<-|[<-|[]]]; lra).
Qed.
