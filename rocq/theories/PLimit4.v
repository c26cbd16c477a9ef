(** C148 for GoHMMs: under the conditions of C75 that keep all deviations positive. *)
From Coq Require Import String ZArith Bool Reals List Lia Lra.
From Verif Require Import Num Py SNum SPath LSum MSet SSet LSet MModels MLik MBW LFB LEM SBW LBW LBWSet LBWMC SLik LPath LLik LLik2 LBWLoop LBWPath SExp LEMGen LBWMDP LBWGO PLik LFit PBWMC PBWGO SGain LGain PGain PGain2 SGrad LGrad LGrad2 PGrad PGrad2 PGrad3 SLimit LLimit PLimit.
Import ListNotations.
Local Open Scope R_scope.

Definition go_frame (m m' : gohmm R) : Prop := go_n m' = go_n m /\ go_name m' = go_name m.
Lemma go_good_sub d m : go_good d m -> go_sub m.
Proof. intros (W & S & I & _). split; [split; [apply S|intros r Ir; rewrite (proj2 S r Ir); lra]|lra]. Qed.
Lemma go_run d it p set : go_good d (it 0%nat) -> obs_dim d set -> pos_times set -> varied d set -> endless (round_GoHMM p d set) it ->
  (forall k, go_good d (it k) /\ go_frame (it 0%nat) (it k)) /\
  (forall k, set_ll (go_trace_density_move (it k)) set + go_moved d set (it k) (it (S k)) <= set_ll (go_trace_density_move (it (S k))) set) /\
  (forall k tr t, In (tr, t) set -> 0 < go_trace_density_move (it k) tr).
Proof.
  intros S0 Hd HT V E.
  assert (A : forall k, go_good d (it k) /\ go_frame (it 0%nat) (it k)).
  { apply (endless_inv _ it (fun x => go_good d x /\ go_frame (it 0%nat) x) E); [split; [exact S0|repeat split]|].
    intros x x' ll [Sx (F1 & F2)] Ex. destruct (go_good_round d set p x x' ll Sx Hd HT V Ex) as [Gx' _]. split; [exact Gx'|].
    destruct Sx as (W & S & _ & F). destruct (round_go_ok d x set p x' ll (conj W (proj1 S)) (proj1 (proj2 F)) Hd Ex HT) as (_ & N1 & N2 & _). split; congruence. }
  split; [exact A|]. split.
  - intros k. destruct (E k) as [ll El]. destruct (A k) as [G _]. apply (go_good_round d set p (it k) _ ll G Hd HT V El).
  - intros k tr t I. destruct (A k) as [(_ & _ & _ & F) _]. rewrite <- gP_path. apply (full_P d); [exact F|exact (Hd tr t I)].
Qed.

(** the parts of the moves *)
Definition out_moved (m m' : gohmm R) (s j : nat) : R := (mean m' s j - mean m s j) ^ 2 / (2 * stddev m' s j ^ 2) + (stddev m' s j / stddev m s j - 1) ^ 2 / 2.
Lemma go_moved_parts d set m m' : go_ok d m -> pos_sigma d m -> obs_dim d set -> pos_times set -> (go_n m' = go_n m -> pos_sigma d m') -> go_n m' = go_n m ->
  0 <= go_moved d set m m' /\
  Sum (go_n m) (gIN m set) * moved (go_n m) (vecR (go_ini m)) (vecR (go_ini m')) <= go_moved d set m m' /\
  forall s, (s < go_n m)%nat ->
    gDEN m set s * moved (go_n m) (matR (go_mat m) s) (matR (go_mat m') s) <= go_moved d set m m' /\
    forall j, (j < d)%nat -> gDEN m set s * out_moved m m' s j <= go_moved d set m m'.
Proof.
  intros [W N] Sg Hd HT Sg' Hn. specialize (Sg' Hn). unfold go_moved.
  rewrite <- (Sum_ext (go_n m) (gIN m set)) by (intros s Hs; apply gIN_path; exact Hs).
  set (F1 := fun s => set_expected (go_trace_density_move m) (go_expected_visits m s) set * moved (go_n m) (matR (go_mat m) s) (matR (go_mat m') s)).
  set (F2 := fun s => set_expected (go_trace_density_move m) (go_expected_visits m s) set * Sum d (fun k =>
         (mean m' s k - mean m s k) ^ 2 / (2 * stddev m' s k ^ 2) + (stddev m' s k / stddev m s k - 1) ^ 2 / 2)).
  assert (Vn : forall s, (s < go_n m)%nat -> 0 <= set_expected (go_trace_density_move m) (go_expected_visits m s) set).
  { intros s Hs. rewrite <- gDEN_path by exact Hs. apply (gDEN_nonneg m d W Sg set Hd N HT s Hs). }
  assert (On : forall s j, (s < go_n m)%nat -> (j < d)%nat -> 0 <= out_moved m m' s j).
  { intros s j Hs Hj. unfold out_moved. pose proof (Sg' s j ltac:(rewrite Hn; exact Hs) Hj) as Sp.
    apply Rplus_le_le_0_compat; apply Rmult_le_pos; try apply pow2_ge_0; try lra. left. apply Rinv_0_lt_compat. assert (0 < stddev m' s j ^ 2) by (apply pow_lt; exact Sp). lra. }
  assert (Q0 : 0 <= Sum (go_n m) (gIN m set) * moved (go_n m) (vecR (go_ini m)) (vecR (go_ini m'))).
  { apply Rmult_le_pos; [|apply moved_nonneg]. apply Sum_nonneg. intros s Hs. apply (IN_nonneg (go_n m) set (vget (go_ini m)) (gW m) go1 HT); auto.
    - intros tr t I. apply (g_okw m d Sg set Hd N tr t I).
    - intros tr t I i Hi. lra.
    - apply (g_oka m d W). }
  assert (P1 : forall s, (s < go_n m)%nat -> 0 <= F1 s) by (intros s Hs; apply Rmult_le_pos; [apply Vn; exact Hs|apply moved_nonneg]).
  assert (P2 : forall s, (s < go_n m)%nat -> 0 <= F2 s) by (intros s Hs; apply Rmult_le_pos; [apply Vn; exact Hs|apply Sum_nonneg; intros j Hj; apply (On s j Hs Hj)]).
  pose proof (Sum_nonneg _ _ P1) as Q1. pose proof (Sum_nonneg _ _ P2) as Q2. split; [lra|]. split; [lra|]. intros s Hs.
  pose proof (Sum_one_le _ _ s P1 Hs) as O1. pose proof (Sum_one_le _ _ s P2 Hs) as O2. unfold F1 at 1 in O1. rewrite <- gDEN_path in O1 by exact Hs. split; [lra|].
  intros j Hj. apply Rle_trans with (F2 s); [|lra]. unfold F2. rewrite <- gDEN_path by exact Hs. apply Rmult_le_compat_l; [rewrite gDEN_path by exact Hs; apply Vn; exact Hs|].
  apply (Sum_one_le d (out_moved m m' s) j); [intros i Hi; apply On; assumption|exact Hj].
Qed.

Section GL.
  Variables (d : nat) (it : nat -> gohmm R) (f : nat -> nat) (m : gohmm R) (p : nat) (set : list (list (list R) * Z)).
  Hypothesis S0 : go_good d (it 0%nat).
  Hypothesis Hd : obs_dim d set.
  Hypothesis HT : pos_times set.
  Hypothesis HV : varied d set.
  Hypothesis HE : endless (round_GoHMM p d set) it.
  Hypothesis HF : grows f.
  Hypothesis HC : go_tends d (fun k => it (f k)) m.
  Hypothesis Hsg : pos_sigma d m.
  Notation n := (go_n m).
  Definition gl_wk k (o : list R) s s' := go_density (it (f k)) o s * matR (go_mat (it (f k))) s s'.
  Definition gl_wm (o : list R) s s' := go_density m o s * matR (go_mat m) s s'.
  Definition gl_a k := vget (go_ini (it (f k))).
  Definition gl_fo (_ : nat) (_ : list (list R)) (_ : nat) : R := 1.
  Notation w := gl_wk. Notation wl := gl_wm. Notation fo := gl_fo.
  Notation L := (fun k => set_ll (go_trace_density_move (it k)) set).

  Lemma gl_ws k : gW (it (f k)) = fun tr => map (w k) tr. Proof. reflexivity. Qed.
  Lemma gl_wsl : gW m = fun tr => map wl tr. Proof. reflexivity. Qed.
  Lemma gl_n k : go_n (it (f k)) = n. Proof. apply (proj1 HC k). Qed.
  Lemma gl_P k tr : Pof n (gl_a k) (fun tr => map (w k) tr) (fo k) tr = go_trace_density_move (it (f k)) tr.
  Proof. rewrite <- gP_path. rewrite gl_n. reflexivity. Qed.
  Lemma gl_Pl tr : Pof n (vget (go_ini m)) (fun tr => map wl tr) (fo 0%nat) tr = go_trace_density_move m tr.
  Proof. rewrite <- gP_path. reflexivity. Qed.
  Lemma gl_good k : go_good d (it k). Proof. apply (go_run d it p set S0 Hd HT HV HE). Qed.
  Lemma gl_gok k : go_ok d (it k). Proof. destruct (gl_good k) as (W & S & _). split; [exact W|apply S]. Qed.
  Lemma gl_sig k : pos_sigma d (it k). Proof. destruct (gl_good k) as (_ & _ & _ & F). apply F. Qed.
  Lemma gl_nS k : go_n (it (S (f k))) = n.
  Proof. rewrite <- (gl_n k). destruct (go_run d it p set S0 Hd HT HV HE) as (A & _). destruct (A (f k)) as [_ [-> _]]. destruct (A (S (f k))) as [_ [-> _]]. reflexivity. Qed.
  Lemma gl_nS' k : go_n (it (S k)) = go_n (it k).
  Proof. destruct (go_run d it p set S0 Hd HT HV HE) as (A & _). destruct (A k) as [_ [-> _]]. destruct (A (S k)) as [_ [-> _]]. reflexivity. Qed.
  Lemma gl_up k : L k <= L (S k).
  Proof.
    destruct (go_run d it p set S0 Hd HT HV HE) as (A & G & _). specialize (G k).
    pose proof (proj1 (go_moved_parts d set (it k) (it (S k)) (gl_gok k) (gl_sig k) Hd HT (fun _ => gl_sig (S k)) (gl_nS' k))). lra.
  Qed.
  Lemma gl_ok : go_ok d m /\ go_sub m.
  Proof.
    destruct HC as (F & T1 & T3 & O1 & O2 & _). assert (Wk : forall k, wf_gohmm d (it (f k))) by (intros k; apply (gl_good (f k))).
    destruct T3 as [C1 C2].
    assert (Nn : nonneg_mat (go_mat m)) by (apply (rect_nonneg_tends n n (fun k => go_mat (it (f k)))); [exact T1|intros k; apply (gl_good (f k))]).
    split; [split; [|exact Nn]|split; [split; [exact Nn|]|]].
    - unfold wf_gohmm. destruct T1 as (A1 & A2 & _). split; [split; assumption|]. split; [exact O1|]. split; [exact O2|]. split; [exact C1|].
      intros y Iy. apply (In_nth _ _ 0) in Iy. destruct Iy as [s [Hs <-]]. rewrite C1 in Hs. apply (cv_nonneg (fun k => vecR (go_ini (it (f k))) s)); [|apply C2; exact Hs].
      intros k. apply vget_nonneg. destruct (Wk k) as (_ & _ & _ & _ & Q). exact Q.
    - apply (rect_rows_tends n n (fun k => go_mat (it (f k)))); [exact T1| |].
      + intros k. rewrite <- (gl_n k). apply (Wk k).
      + intros k r Ir. destruct (gl_good (f k)) as (_ & S & _). rewrite (proj2 S r Ir). lra.
    - rewrite rsum_nth, C1. apply (cv_le (fun k => rsum (go_ini (it (f k))))); [intros k; destruct (gl_good (f k)) as (_ & _ & -> & _); lra|].
      apply (cv_ext (fun k => Sum n (vecR (go_ini (it (f k)))))).
      + intros k. rewrite rsum_nth. destruct (Wk k) as (_ & _ & _ & -> & _). rewrite gl_n. reflexivity.
      + apply (cv_Sum n (fun k => vecR (go_ini (it (f k))))). exact C2.
  Qed.
  Lemma gl_acv : acv n gl_a (vget (go_ini m)).
  Proof. intros s Hs. destruct HC as (_ & _ & (_ & T) & _). apply T. exact Hs. Qed.
  Lemma gl_mean s j : (s < n)%nat -> (j < d)%nat -> Un_cv (fun k => mean (it (f k)) s j) (mean m s j).
  Proof. intros Hs Hj. destruct HC as (_ & _ & _ & _ & _ & T). apply (T s j Hs Hj). Qed.
  Lemma gl_sd s j : (s < n)%nat -> (j < d)%nat -> Un_cv (fun k => stddev (it (f k)) s j) (stddev m s j).
  Proof. intros Hs Hj. destruct HC as (_ & _ & _ & _ & _ & T). apply (T s j Hs Hj). Qed.
  Lemma cv_sq u l : Un_cv u l -> Un_cv (fun k => u k ^ 2) (l ^ 2).
  Proof. intros H. apply (cv_ext (fun k => u k * u k)); [intros; ring|]. replace (l ^ 2) with (l * l) by ring. apply CV_mult; exact H. Qed.
  Lemma normal_cv mu sg x (M S : R) : 0 < S -> Un_cv mu M -> Un_cv sg S -> Un_cv (fun k => normal (mu k) (sg k) x) (normal M S x).
  Proof.
    intros Sp Hm Hs. assert (S2 : 0 < S ^ 2) by (apply pow_lt; exact Sp). pose proof PI_RGT_0 as Pp. unfold normal.
    apply (cv_div (fun k => exp (- ((x - mu k) ^ 2 / (2 * sg k ^ 2)))) (fun k => sqrt (2 * PI * sg k ^ 2))).
    - apply Rgt_not_eq. apply sqrt_lt_R0. apply Rmult_lt_0_compat; lra.
    - apply (cv_exp (fun k => - ((x - mu k) ^ 2 / (2 * sg k ^ 2)))). apply CV_opp. apply (cv_div (fun k => (x - mu k) ^ 2) (fun k => 2 * sg k ^ 2)); [lra| |].
      + apply (cv_sq (fun k => x - mu k)). apply (CV_minus (fun _ => x)); [apply cv_const|exact Hm].
      + apply (CV_mult (fun _ => 2)); [apply cv_const|apply cv_sq; exact Hs].
    - apply (cv_sqrt (fun k => 2 * PI * sg k ^ 2)); [nra|]. apply (CV_mult (fun _ => 2 * PI)); [apply cv_const|apply cv_sq; exact Hs].
  Qed.
  Lemma density_cv o s : length o = d -> (s < n)%nat -> Un_cv (fun k => go_density (it (f k)) o s) (go_density m o s).
  Proof.
    intros Lo Hs. unfold go_density.
    assert (H : forall l, (forall j, In j l -> (j < d)%nat) -> Un_cv (fun k => fold_right Rmult 1 (map (fun j => normal (mean (it (f k)) s j) (stddev (it (f k)) s j) (nth j o 0)) l))
       (fold_right Rmult 1 (map (fun j => normal (mean m s j) (stddev m s j) (nth j o 0)) l))).
    { induction l as [|j l IH]; intros Hl; [exact (cv_const 1)|]. cbn [map fold_right].
      apply (CV_mult (fun k => normal (mean (it (f k)) s j) (stddev (it (f k)) s j) (nth j o 0))); [|apply IH; intros; apply Hl; right; assumption].
      assert (Hj : (j < d)%nat) by (apply Hl; left; reflexivity). apply (normal_cv (fun k => mean (it (f k)) s j) (fun k => stddev (it (f k)) s j)).
      - apply Hsg; assumption.
      - apply gl_mean; assumption.
      - apply gl_sd; assumption. }
    apply H. intros j Ij. apply in_seq in Ij. lia.
  Qed.
  Lemma gl_w tr (t : Z) : In (tr, t) set -> wcv n w wl tr.
  Proof.
    intros It o s s' I Hs Hs'. destruct HC as (_ & (_ & _ & T1) & _). apply (CV_mult (fun k => go_density (it (f k)) o s)); [|apply T1; assumption].
    apply density_cv; [apply (Hd tr t It o I)|exact Hs].
  Qed.
  Lemma gl_f (tr : list (list R)) (t : Z) s : In (tr, t) set -> (s < n)%nat -> Un_cv (fun k => fo k tr s) (fo 0%nat tr s).
  Proof. intros. exact (cv_const 1). Qed.
  Lemma gl_Pp k tr t : In (tr, t) set -> 0 < Pof n (gl_a k) (fun tr => map (w k) tr) (fo k) tr.
  Proof. intros I. rewrite gl_P. destruct (go_run d it p set S0 Hd HT HV HE) as (_ & _ & Q). apply (Q (f k) tr t I). Qed.
  Lemma gl_N k tr (t : Z) : In (tr, t) set -> 0 <= Pof n (gl_a k) (fun tr => map (w k) tr) (fo k) tr.
  Proof. intros I. apply Rlt_le. apply (gl_Pp k tr t I). Qed.
  Lemma gl_S k tr (t : Z) : In (tr, t) set -> (0 < Pof n (gl_a 0%nat) (fun tr => map (w 0%nat) tr) (fo 0%nat) tr <-> 0 < Pof n (gl_a k) (fun tr => map (w k) tr) (fo k) tr).
  Proof. intros I. split; intros _; apply (gl_Pp _ tr t I). Qed.
  Lemma gl_L k : L 0%nat <= set_ll (Pof n (gl_a k) (fun tr => map (w k) tr) (fo k)) set.
  Proof. rewrite (set_ll_ext _ _ set (fun tr t _ => gl_P k tr)). apply (up_le L); [exact gl_up|lia]. Qed.

  Lemma gl_ll : Un_cv L (set_ll (go_trace_density_move m) set).
  Proof.
    apply (up_cv L _ f gl_up HF). rewrite <- (set_ll_ext _ _ set (fun tr t _ => gl_Pl tr)).
    eapply cv_ext; [|apply (ll_cv n set (fun tr => tr) gl_a (vget (go_ini m)) w wl fo (fo 0%nat) (L 0%nat) HT gl_acv gl_w gl_f gl_N gl_S gl_L)].
    intros k. apply (set_ll_ext _ _ set (fun tr t _ => gl_P k tr)).
  Qed.
  Lemma gl_possible tr t : In (tr, t) set -> 0 < go_trace_density_move m tr.
  Proof.
    intros I. rewrite <- gl_Pl.
    apply (possible n set (fun tr => tr) gl_a (vget (go_ini m)) w wl fo (fo 0%nat) (L 0%nat) HT gl_acv gl_w gl_f gl_N gl_S gl_L tr t I). apply (gl_Pp 0%nat tr t I).
  Qed.
  Lemma gl_num s s' : (s < n)%nat -> (s' < n)%nat -> Un_cv (fun k => gNUM (it (f k)) set s s') (gNUM m set s s').
  Proof.
    intros Hs Hs'. unfold gNUM. rewrite gl_wsl.
    eapply cv_ext; [|apply (XI_cv n set (fun tr => tr) gl_a (vget (go_ini m)) w wl fo (fo 0%nat) (L 0%nat) HT gl_acv gl_w gl_f gl_N gl_S gl_L _ s s' Hs Hs')].
    intros k. cbv beta. rewrite gl_ws, gl_n. unfold ones1. apply psum_ext. intros y t I P. rewrite !map_length. reflexivity.
  Qed.
  Lemma gl_den s : (s < n)%nat -> Un_cv (fun k => gDEN (it (f k)) set s) (gDEN m set s).
  Proof.
    intros Hs. unfold gDEN. rewrite gl_wsl.
    eapply cv_ext; [|apply (GA_cv n set (fun tr => tr) gl_a (vget (go_ini m)) w wl fo (fo 0%nat) (L 0%nat) HT gl_acv gl_w gl_f gl_N gl_S gl_L _ s Hs)].
    intros k. cbv beta. rewrite gl_ws, gl_n. unfold ones1. apply psum_ext. intros y t I P. rewrite !map_length. reflexivity.
  Qed.
  Lemma gl_sum s j h : (s < n)%nat -> Un_cv (fun k => gSUM (it (f k)) set s j h) (gSUM m set s j h).
  Proof.
    intros Hs. unfold gSUM. rewrite gl_wsl.
    eapply cv_ext; [|apply (GA_cv n set (fun tr => tr) gl_a (vget (go_ini m)) w wl fo (fo 0%nat) (L 0%nat) HT gl_acv gl_w gl_f gl_N gl_S gl_L _ s Hs)].
    intros k. cbv beta. rewrite gl_ws, gl_n. reflexivity.
  Qed.
  Lemma gl_in s : (s < n)%nat -> Un_cv (fun k => gIN (it (f k)) set s) (gIN m set s).
  Proof.
    intros Hs. unfold gIN. rewrite gl_wsl.
    eapply cv_ext; [|apply (IN_cv n set (fun tr => tr) gl_a (vget (go_ini m)) w wl fo (fo 0%nat) (L 0%nat) HT gl_acv gl_w gl_f gl_N gl_S gl_L s Hs)].
    intros k. cbv beta. rewrite gl_ws, gl_n. reflexivity.
  Qed.
  Lemma gSUM_square x s j c : gSUM x set s j (fun y => (y - c) * (y - c)) = gSUM x set s j (fun y => y * y) + (gSUM x set s j (fun y => y) * (-2 * c) + gDEN x set s * (c * c)).
  Proof.
    rewrite (gSUM_ext x set s j _ (fun y => y * y + (y * (-2 * c) + c * c))) by (intros; ring).
    rewrite gSUM_plus, gSUM_plus, gSUM_scal, gSUM_const. reflexivity.
  Qed.
  Lemma gl_gain k : 0 <= L (S (f k)) - L (f k) /\ go_moved d set (it (f k)) (it (S (f k))) <= L (S (f k)) - L (f k).
  Proof. pose proof (gl_up (f k)). destruct (go_run d it p set S0 Hd HT HV HE) as (_ & G & _). specialize (G (f k)). cbv beta in *. lra. Qed.
  Lemma gl_gain0 : Un_cv (fun k => L (S (f k)) - L (f k)) 0.
  Proof. apply (up_step L (set_ll (go_trace_density_move m) set) f gl_up HF). apply (cv_sub L (set_ll (go_trace_density_move m) set) f HF). exact gl_ll. Qed.
  Lemma gl_parts k : 
    Sum n (gIN (it (f k)) set) * moved n (vecR (go_ini (it (f k)))) (vecR (go_ini (it (S (f k))))) <= L (S (f k)) - L (f k) /\
    forall s, (s < n)%nat ->
      gDEN (it (f k)) set s * moved n (matR (go_mat (it (f k))) s) (matR (go_mat (it (S (f k)))) s) <= L (S (f k)) - L (f k) /\
      forall j, (j < d)%nat -> gDEN (it (f k)) set s * out_moved (it (f k)) (it (S (f k))) s j <= L (S (f k)) - L (f k).
  Proof.
    destruct (go_moved_parts d set (it (f k)) (it (S (f k))) (gl_gok _) (gl_sig _) Hd HT (fun _ => gl_sig _) (gl_nS' _)) as (_ & Q & R). rewrite gl_n in Q, R.
    destruct (gl_gain k) as [_ G]. cbv beta in G. split; [lra|]. intros s Hs. destruct (R s Hs) as [R1 R2]. split; [lra|]. intros j Hj. specialize (R2 j Hj). lra.
  Qed.

  Hypothesis Hvis : forall s, (s < n)%nat -> set_expected (go_trace_density_move m) (go_expected_visits m s) set <> 0.
  Lemma gl_visited s : (s < n)%nat -> 0 < gDEN m set s.
  Proof.
    intros Hs. destruct gl_ok as [[W N] _]. pose proof (gDEN_nonneg m d W Hsg set Hd N HT s Hs) as G. specialize (Hvis s Hs). rewrite <- gDEN_path in Hvis by exact Hs. lra.
  Qed.
  Lemma gl_spec k : exists lk, round_GoHMM p d set (it (f k)) = Ok (it (S (f k)), lk) /\
    (forall s s', (s < n)%nat -> (s' < n)%nat -> mget (go_mat (it (S (f k)))) s s' = est (gDEN (it (f k)) set s) (gNUM (it (f k)) set s) (mget (go_mat (it (f k))) s) s') /\
    (forall s j, (s < n)%nat -> (j < d)%nat -> mean (it (S (f k))) s j = gSUM (it (f k)) set s j (fun x => x) / gDEN (it (f k)) set s) /\
    (forall s j, (s < n)%nat -> (j < d)%nat -> stddev (it (S (f k))) s j =
       sqrt (gSUM (it (f k)) set s j (fun x => (x - mean (it (f k)) s j) * (x - mean (it (f k)) s j)) / gDEN (it (f k)) set s)) /\
    (forall s, (s < n)%nat -> vget (go_ini (it (S (f k)))) s = gIN (it (f k)) set s / Sum n (gIN (it (f k)) set)) /\ 0 < Sum n (gIN (it (f k)) set).
  Proof.
    destruct (HE (f k)) as [lk E]. exists lk. split; [exact E|]. destruct (gl_gok (f k)) as [W N].
    destruct (round_GoHMM_spec _ d W (gl_sig (f k)) set Hd N p _ lk E) as (_ & _ & _ & _ & _ & _ & G & H1 & H2 & I & _ & X).
    pose proof (g_INtot _ set HT X) as Tp. rewrite gl_n in *. destruct (gl_good (f k)) as (_ & _ & _ & F).
    assert (Dz : forall s, (s < n)%nat -> gDEN (it (f k)) set s <> 0).
    { intros s Hs. apply Rgt_not_eq. apply (full_DEN d); auto; [apply HV|rewrite gl_n; exact Hs]. }
    split; [exact G|]. split; [|split; [|split; [exact I|exact Tp]]].
    - intros s j Hs Hj. rewrite H1 by assumption. destruct (Req_EM_T _ 0) as [Z|]; [destruct (Dz s Hs Z)|reflexivity].
    - intros s j Hs Hj. rewrite H2 by assumption. destruct (Req_EM_T _ 0) as [Z|]; [destruct (Dz s Hs Z)|reflexivity].
  Qed.
  Lemma gl_out s j : (s < n)%nat -> (j < d)%nat ->
    gSUM m set s j (fun x => x) / gDEN m set s = mean m s j /\
    sqrt (gSUM m set s j (fun x => (x - mean m s j) * (x - mean m s j)) / gDEN m set s) = stddev m s j.
  Proof.
    intros Hs Hj. pose proof (gl_visited s Hs) as Vp. pose proof (Hsg s j Hs Hj) as Sp. destruct gl_ok as [[W N] _].
    set (M1 := gSUM m set s j (fun x => x) / gDEN m set s). set (S1 := sqrt (gSUM m set s j (fun x => (x - mean m s j) * (x - mean m s j)) / gDEN m set s)).
    assert (C1 : Un_cv (fun k => mean (it (S (f k))) s j) M1).
    { apply (cv_ext (fun k => gSUM (it (f k)) set s j (fun x => x) / gDEN (it (f k)) set s)); [intros k; destruct (gl_spec k) as (lk & _ & _ & Q & _); symmetry; apply Q; assumption|].
      apply (cv_div (fun k => gSUM (it (f k)) set s j (fun x => x)) (fun k => gDEN (it (f k)) set s)); [lra|apply gl_sum; exact Hs|apply gl_den; exact Hs]. }
    assert (C2 : Un_cv (fun k => stddev (it (S (f k))) s j) S1).
    { apply (cv_ext (fun k => sqrt (gSUM (it (f k)) set s j (fun x => (x - mean (it (f k)) s j) * (x - mean (it (f k)) s j)) / gDEN (it (f k)) set s)));
        [intros k; destruct (gl_spec k) as (lk & _ & _ & _ & Q & _); symmetry; apply Q; assumption|].
      apply (cv_sqrt (fun k => gSUM (it (f k)) set s j (fun x => (x - mean (it (f k)) s j) * (x - mean (it (f k)) s j)) / gDEN (it (f k)) set s)).
      - apply Rmult_le_pos; [|left; apply Rinv_0_lt_compat; exact Vp]. apply (gSUM_nonneg m d W Hsg set Hd N HT); [exact Hs|]. intros; apply Rle_0_sqr.
      - apply (cv_div (fun k => gSUM (it (f k)) set s j (fun x => (x - mean (it (f k)) s j) * (x - mean (it (f k)) s j))) (fun k => gDEN (it (f k)) set s)); [lra| |apply gl_den; exact Hs].
        rewrite gSUM_square. eapply cv_ext; [intros k; symmetry; apply gSUM_square|].
        apply (CV_plus (fun k => gSUM (it (f k)) set s j (fun y => y * y)) (fun k => gSUM (it (f k)) set s j (fun y => y) * (-2 * mean (it (f k)) s j) + gDEN (it (f k)) set s * (mean (it (f k)) s j * mean (it (f k)) s j))); [apply gl_sum; exact Hs|].
        apply (CV_plus (fun k => gSUM (it (f k)) set s j (fun y => y) * (-2 * mean (it (f k)) s j)) (fun k => gDEN (it (f k)) set s * (mean (it (f k)) s j * mean (it (f k)) s j))).
        + apply (CV_mult (fun k => gSUM (it (f k)) set s j (fun y => y)) (fun k => -2 * mean (it (f k)) s j)); [apply gl_sum; exact Hs|].
          apply (CV_mult (fun _ => -2)); [apply cv_const|apply gl_mean; assumption].
        + apply (CV_mult (fun k => gDEN (it (f k)) set s) (fun k => mean (it (f k)) s j * mean (it (f k)) s j)); [apply gl_den; exact Hs|]. apply CV_mult; apply gl_mean; assumption. }
    assert (E2 : S1 / stddev m s j = 1).
    { assert (C : Un_cv (fun k => gDEN (it (f k)) set s * ((stddev (it (S (f k))) s j / stddev (it (f k)) s j - 1) ^ 2 / 2)) (gDEN m set s * ((S1 / stddev m s j - 1) ^ 2 / 2))).
      { apply (CV_mult (fun k => gDEN (it (f k)) set s) (fun k => (stddev (it (S (f k))) s j / stddev (it (f k)) s j - 1) ^ 2 / 2)); [apply gl_den; exact Hs|].
        apply (cv_div (fun k => (stddev (it (S (f k))) s j / stddev (it (f k)) s j - 1) ^ 2) (fun _ => 2)); [lra| |apply cv_const].
        apply (cv_sq (fun k => stddev (it (S (f k))) s j / stddev (it (f k)) s j - 1)). apply (CV_minus (fun k => stddev (it (S (f k))) s j / stddev (it (f k)) s j) (fun _ => 1)); [|apply cv_const].
        apply (cv_div (fun k => stddev (it (S (f k))) s j) (fun k => stddev (it (f k)) s j)); [lra|exact C2|apply gl_sd; assumption]. }
      assert (Z : Un_cv (fun k => gDEN (it (f k)) set s * ((stddev (it (S (f k))) s j / stddev (it (f k)) s j - 1) ^ 2 / 2)) 0).
      { apply (cv_squeeze _ (fun k => L (S (f k)) - L (f k))); [|exact gl_gain0]. intros k. destruct (gl_gok (f k)) as [Wk Nk].
        pose proof (gDEN_nonneg _ d Wk (gl_sig (f k)) set Hd Nk HT s ltac:(rewrite gl_n; exact Hs)) as Dn.
        split; [apply Rmult_le_pos; [exact Dn|]; pose proof (pow2_ge_0 (stddev (it (S (f k))) s j / stddev (it (f k)) s j - 1)); lra|].
        destruct (gl_parts k) as [_ Q]. destruct (Q s Hs) as [_ Q2]. specialize (Q2 j Hj). eapply Rle_trans; [|exact Q2]. apply Rmult_le_compat_l; [exact Dn|]. unfold out_moved.
        pose proof (gl_sig (S (f k)) s j ltac:(rewrite gl_nS; exact Hs) Hj) as Sk. assert (0 <= (mean (it (S (f k))) s j - mean (it (f k)) s j) ^ 2 / (2 * stddev (it (S (f k))) s j ^ 2)); [|lra].
        apply Rmult_le_pos; [apply pow2_ge_0|]. left. apply Rinv_0_lt_compat. assert (0 < stddev (it (S (f k))) s j ^ 2) by (apply pow_lt; exact Sk). lra. }
      pose proof (UL_sequence _ _ _ C Z) as Eq. apply Rmult_integral in Eq. destruct Eq as [Eq|Eq]; [lra|]. assert (Q : (S1 / stddev m s j - 1) ^ 2 = 0) by lra.
      cbn [pow] in Q. rewrite Rmult_1_r in Q. apply Rsqr_0_uniq in Q. lra. }
    assert (ES : S1 = stddev m s j) by (apply (Rmult_eq_reg_r (/ stddev m s j)); [rewrite Rinv_r by lra; exact E2|apply Rinv_neq_0_compat; lra]).
    split; [|exact ES].
    assert (C : Un_cv (fun k => gDEN (it (f k)) set s * ((mean (it (S (f k))) s j - mean (it (f k)) s j) ^ 2 / (2 * stddev (it (S (f k))) s j ^ 2))) (gDEN m set s * ((M1 - mean m s j) ^ 2 / (2 * S1 ^ 2)))).
    { assert (S2 : 0 < S1 ^ 2) by (apply pow_lt; rewrite ES; exact Sp).
      apply (CV_mult (fun k => gDEN (it (f k)) set s) (fun k => (mean (it (S (f k))) s j - mean (it (f k)) s j) ^ 2 / (2 * stddev (it (S (f k))) s j ^ 2))); [apply gl_den; exact Hs|].
      apply (cv_div (fun k => (mean (it (S (f k))) s j - mean (it (f k)) s j) ^ 2) (fun k => 2 * stddev (it (S (f k))) s j ^ 2)); [lra| |].
      - apply (cv_sq (fun k => mean (it (S (f k))) s j - mean (it (f k)) s j)). apply (CV_minus (fun k => mean (it (S (f k))) s j)); [exact C1|apply gl_mean; assumption].
      - apply (CV_mult (fun _ => 2)); [apply cv_const|apply cv_sq; exact C2]. }
    assert (Z : Un_cv (fun k => gDEN (it (f k)) set s * ((mean (it (S (f k))) s j - mean (it (f k)) s j) ^ 2 / (2 * stddev (it (S (f k))) s j ^ 2))) 0).
    { apply (cv_squeeze _ (fun k => L (S (f k)) - L (f k))); [|exact gl_gain0]. intros k. destruct (gl_gok (f k)) as [Wk Nk].
      pose proof (gDEN_nonneg _ d Wk (gl_sig (f k)) set Hd Nk HT s ltac:(rewrite gl_n; exact Hs)) as Dn.
      pose proof (gl_sig (S (f k)) s j ltac:(rewrite gl_nS; exact Hs) Hj) as Sk.
      split.
      - apply Rmult_le_pos; [exact Dn|]. apply Rmult_le_pos; [apply pow2_ge_0|]. left. apply Rinv_0_lt_compat. assert (0 < stddev (it (S (f k))) s j ^ 2) by (apply pow_lt; exact Sk). lra.
      - destruct (gl_parts k) as [_ Q]. destruct (Q s Hs) as [_ Q2]. specialize (Q2 j Hj). eapply Rle_trans; [|exact Q2]. apply Rmult_le_compat_l; [exact Dn|]. unfold out_moved.
        pose proof (pow2_ge_0 (stddev (it (S (f k))) s j / stddev (it (f k)) s j - 1)). lra. }
    pose proof (UL_sequence _ _ _ C Z) as Eq. apply Rmult_integral in Eq. destruct Eq as [Eq|Eq]; [lra|].
    assert (S2 : 0 < S1 ^ 2) by (apply pow_lt; rewrite ES; exact Sp).
    apply Rmult_integral in Eq. destruct Eq as [Eq|Eq]; [|exfalso; apply (Rinv_neq_0_compat (2 * S1 ^ 2)); [lra|exact Eq]].
    cbn [pow] in Eq. rewrite Rmult_1_r in Eq. apply Rsqr_0_uniq in Eq. lra.
  Qed.
  Lemma gl_fixed : exists ll, round_GoHMM p d set m = Ok (m, ll).
  Proof.
    destruct gl_ok as [[W N] Sb]. destruct (HE 0%nat) as [l0 E0]. destruct (gl_gok 0%nat) as [W0 N0].
    destruct (round_GoHMM_spec _ d W0 (gl_sig 0%nat) set Hd N0 p _ l0 E0) as (_ & _ & _ & _ & _ & _ & _ & _ & _ & _ & _ & tr & t & I & _).
    destruct (round_go_succeeds d m set p (conj W N) Hsg Hd) as (m' & ll & E).
    - exists tr, t. split; [exact I|]. apply (gl_possible tr t I).
    - right. intros y u J. apply (gl_possible y u J).
    - exists ll. rewrite E. f_equal. f_equal.
      destruct (round_GoHMM_spec m d W Hsg set Hd N p m' ll E) as (A & B & D & Lo & Ro & Li & G & H1 & H2 & Hi & _ & X).
      assert (Ea : go_mat m' = go_mat m).
      { apply (mat_ext n); [exact D|apply W|]. intros s s' Hs Hs'. etransitivity; [apply (G s s' Hs Hs')|].
        apply (row_limit_next n (fun k => gDEN (it (f k)) set s) (fun k => gNUM (it (f k)) set s) (fun k => matR (go_mat (it (f k))) s) (fun k => matR (go_mat (it (S (f k)))) s) (fun k => L (S (f k)) - L (f k)) (gDEN m set s) (gNUM m set s) (matR (go_mat m) s)); auto.
        - intros k. destruct (gl_gok (f k)) as [Wa Na]. apply (gDEN_nonneg _ d Wa (gl_sig _) set Hd Na HT). rewrite gl_n; exact Hs.
        - intros k j Hj. destruct (gl_gok (f k)) as [Wa Na]. apply (gNUM_nonneg _ d Wa (gl_sig _) set Hd Na HT); rewrite gl_n; assumption.
        - intros k j Hj. apply (mget_nonneg (go_mat (it (f k)))). apply (gl_gok (f k)).
        - apply gl_den; exact Hs.
        - intros j Hj. apply gl_num; assumption.
        - intros j Hj. destruct HC as (_ & (_ & _ & T) & _). apply T; assumption.
        - intros k j Hj. destruct (gl_spec k) as (lk & _ & Q & _). apply Q; assumption.
        - intros k. destruct (gl_parts k) as [_ Q]. apply (Q s Hs).
        - exact gl_gain0. }
      assert (Ei : go_ini m' = go_ini m).
      { assert (Li0 : length (go_ini m) = n) by apply W. apply (nth_ext _ _ 0 0); [congruence|]. intros s Hs. rewrite Li in Hs.
        assert (Em : vecR (go_ini m') s = est (Sum n (gIN m set)) (gIN m set) (vecR (go_ini m)) s).
        { unfold est. destruct (Req_EM_T _ 0) as [Z|_]; [pose proof (g_INtot m set HT X); lra|]. apply (Hi s Hs). }
        etransitivity; [exact Em|].
        assert (Inn : forall k j, (j < n)%nat -> 0 <= gIN (it (f k)) set j).
        { intros k j Hj. destruct (gl_gok (f k)) as [Wa Na]. apply (IN_nonneg (go_n (it (f k))) set (vget (go_ini (it (f k)))) (gW (it (f k))) go1 HT).
          - intros y u I'. apply (g_okw _ d (gl_sig (f k)) set Hd Na y u I').
          - intros y u I' i Hi'. lra.
          - apply (g_oka _ d Wa).
          - rewrite gl_n. exact Hj. }
        apply (row_limit_next n (fun k => Sum n (gIN (it (f k)) set)) (fun k => gIN (it (f k)) set) (fun k => vecR (go_ini (it (f k)))) (fun k => vecR (go_ini (it (S (f k))))) (fun k => L (S (f k)) - L (f k)) (Sum n (gIN m set)) (gIN m set) (vecR (go_ini m))); auto.
        - intros k. apply Sum_nonneg. intros i Hi'. apply Inn. exact Hi'.
        - intros k j Hj. apply vget_nonneg. destruct (gl_gok (f k)) as [(_ & _ & _ & _ & Q) _]. exact Q.
        - apply (cv_Sum n (fun k => gIN (it (f k)) set)). intros; apply gl_in; assumption.
        - intros j Hj. apply gl_in; assumption.
        - intros j Hj. apply gl_acv. exact Hj.
        - intros k j Hj. destruct (gl_spec k) as (lk & _ & _ & _ & _ & Q & Tp). unfold est. destruct (Req_EM_T _ 0) as [Z|_]; [lra|]. apply (Q j Hj).
        - intros k. apply (gl_parts k).
        - exact gl_gain0. }
      assert (Eo : go_out m' = go_out m).
      { destruct W as (_ & Lo0 & Ro0 & _). apply (nth_ext _ _ [] []); [congruence|]. intros s Hs. rewrite Lo in Hs.
        assert (L1 : length (nth s (go_out m') []) = d) by (apply Ro, nth_In; lia). assert (L2 : length (nth s (go_out m) []) = d) by (apply Ro0, nth_In; lia).
        apply (nth_ext _ _ (0, 0) (0, 0)); [congruence|]. intros j Hj. rewrite L1 in Hj. destruct (gl_out s j Hs Hj) as [O1 O2]. pose proof (gl_visited s Hs) as Vp.
        specialize (H1 s j Hs Hj). specialize (H2 s j Hs Hj). destruct (Req_EM_T (gDEN m set s) 0) as [Z|_]; [lra|]. rewrite O1 in H1. rewrite O2 in H2.
        unfold mean in H1. unfold stddev in H2. apply injective_projections; assumption. }
      destruct m, m'. cbn in *. subst. reflexivity.
  Qed.
End GL.

Theorem C148_gohmm_endless : forall (d : nat) (m : gohmm R) (p : nat) set,
  wf_gohmm d m -> stochastic (go_mat m) -> rsum (go_ini m) = 1 -> go_full d m -> obs_dim d set -> pos_times set -> varied d set ->
  exists it, it 0%nat = m /\ endless (round_GoHMM p d set) it.
Proof.
  intros d m p set W S I F Hd HT V. assert (NE : set <> []) by (destruct V as [(o & tr & t & It & _) _]; intros ->; destruct It).
  destruct (endless_exists (round_GoHMM p d set) (go_good d) m) as (it & A & B & _); [repeat split; auto; try apply W; try apply S; apply F| |exists it; auto].
  intros x G. pose proof G as (Wx & _ & _ & Fx). destruct (full_round_succeeds d x set p Wx Fx Hd NE) as (x' & ll & E). exists x', ll. split; [exact E|].
  apply (go_good_round d set p x x' ll G Hd HT V E).
Qed.
Print Assumptions C148_gohmm_endless.

(** The deviations of the limit must be positive and its states visited. *)
Theorem C148_gohmm_limit : forall (d : nat) (it : nat -> gohmm R) (f : nat -> nat) (m : gohmm R) (p : nat) set,
  wf_gohmm d (it 0%nat) -> stochastic (go_mat (it 0%nat)) -> rsum (go_ini (it 0%nat)) = 1 -> go_full d (it 0%nat) ->
  obs_dim d set -> pos_times set -> varied d set -> endless (round_GoHMM p d set) it ->
  grows f -> go_tends d (fun k => it (f k)) m -> pos_sigma d m ->
  (forall s, (s < go_n m)%nat -> set_expected (go_trace_density_move m) (go_expected_visits m s) set <> 0) ->
  (exists ll, round_GoHMM p d set m = Ok (m, ll)) /\
  (forall A B i, go_within m A B i -> go_slope set m A B i 0) /\
  Un_cv (fun k => set_ll (go_trace_density_move (it k)) set) (set_ll (go_trace_density_move m) set).
Proof.
  intros d it f m p set W S I F Hd HT V HE HF HC Sg Vis. assert (S0 : go_good d (it 0%nat)) by (split; [exact W|split; [exact S|split; assumption]]).
  destruct (gl_fixed d it f m p set S0 Hd HT V HE HF HC Sg Vis) as [ll E]. destruct (gl_ok d it f m p set S0 Hd HT V HE HC) as [[Wm Nm] _].
  split; [exists ll; exact E|]. split; [apply (C146_gohmm_stationary d m p set ll Wm Sg Nm Hd HT E)|].
  apply (gl_ll d it f m p set S0 Hd HT V HE HF HC Sg).
Qed.
Print Assumptions C148_gohmm_limit.
