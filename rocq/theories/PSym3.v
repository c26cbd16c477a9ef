(** Theorems C144 for models with Gaussian outputs: numbering of the states, scale
    of the counts, origin and unit of the measured quantities. *)
From Coq Require Import String ZArith Bool Reals List Lia Lra Psatz.
From Verif Require Import Num Py SNum SPath LSum MSet SSet MModels MLik MBW LFB LEM SBW LBW LBWSet LBWMC LBWGO LBWLoop SLik LLik LLik2 LPath LEMGen PLik PBWMC PBWGO SExp SSym LSym PSym PSym2.
Import ListNotations.
Local Open Scope R_scope.

Lemma normal_affine u v mu sigma x : 0 < u -> 0 < sigma -> normal (u * mu + v) (u * sigma) (u * x + v) = / u * normal mu sigma x.
Proof.
  intros Hu Hs. unfold normal. rewrite !sqrt_2pi_sigma by (try apply Rmult_lt_0_compat; assumption).
  replace ((u * x + v - (u * mu + v)) ^ 2 / (2 * (u * sigma) ^ 2)) with ((x - mu) ^ 2 / (2 * sigma ^ 2)) by (field; split; lra).
  pose proof sqrt_2pi_pos. field. repeat split; lra.
Qed.
Definition scale (d : nat) (u : nat -> R) : R := fold_right Rmult 1 (map (fun q => / u q) (seq 0 d)).
Lemma scale_pos d u : (forall q, (q < d)%nat -> 0 < u q) -> 0 < scale d u.
Proof. intros H. apply prod_pos. intros q I. apply in_seq in I. apply Rinv_0_lt_compat, H. lia. Qed.
Lemma ln_scale d u : (forall q, (q < d)%nat -> 0 < u q) -> ln (scale d u) = - Sum d (fun q => ln (u q)).
Proof.
  intros H. unfold scale. rewrite ln_prod by (intros q I; apply in_seq in I; apply Rinv_0_lt_compat, H; lia).
  rewrite <- Sum_opp. unfold Sum. apply sumL_ext. intros q I. apply in_seq in I. apply ln_Rinv. apply H. lia.
Qed.
Lemma wsum_affine u v {O} (F : O -> R) l (tr : list O) k : length l = length tr -> k = length tr ->
  wsum l (map (fun o => u * F o + v) tr) = u * wsum l (map F tr) + v * wsum l (repeat 1 k).
Proof.
  intros L ->. revert tr L. induction l as [|x l IH]; intros [|o tr] L; try discriminate; [unfold wsum; cbn; toR; ring|].
  cbn [length] in L. injection L as L. cbn [map repeat length]. rewrite !wsum_cons, IH by exact L. ring.
Qed.

Section GO.
  Variables (d : nat) (f : nat -> nat) (u v : nat -> R) (c : Z) (m m2 : gohmm R).
  Notation n := (go_n m).
  Notation K := (scale d u).
  Hypothesis Hf : renumbering n f.
  Hypothesis Hu : forall q, (q < d)%nat -> 0 < u q.
  Hypothesis Hc : (0 < c)%Z.
  Hypothesis Hs : same_gohmm d f u v m m2.
  Hypothesis Hsg : pos_sigma d m.

  Lemma resc_nth o q : (q < length o)%nat -> nth q (map (fun q => u q * nth q o 0 + v q) (seq 0 (length o))) 0 = u q * nth q o 0 + v q.
  Proof. intros Hq. rewrite (nth_map_in _ _ _ O) by (rewrite seq_length; exact Hq). rewrite seq_nth by exact Hq. reflexivity. Qed.
  Lemma resc_dim o : length (map (fun q => u q * nth q o 0 + v q) (seq 0 (length o))) = length o.
  Proof. rewrite map_length, seq_length. reflexivity. Qed.
  Lemma go_density_sym o i : length o = d -> (i < n)%nat ->
    go_density m2 (map (fun q => u q * nth q o 0 + v q) (seq 0 (length o))) i = K * go_density m o (f i).
  Proof.
    intros L Hi. unfold go_density. rewrite resc_dim, L. unfold scale.
    assert (E : forall q, In q (seq 0 d) -> normal (mean m2 i q) (stddev m2 i q) (nth q (map (fun q0 => u q0 * nth q0 o 0 + v q0) (seq 0 d)) 0)
       = / u q * normal (mean m (f i) q) (stddev m (f i) q) (nth q o 0)).
    { intros q I. apply in_seq in I. rewrite <- L. rewrite resc_nth by lia. destruct Hs as (_ & _ & _ & Mo). destruct (Mo i q Hi ltac:(lia)) as [-> ->].
      apply normal_affine; [apply Hu; lia|]. apply Hsg; [apply Hf; exact Hi|lia]. }
    rewrite (map_ext_in _ _ _ E). clear E. induction (seq 0 d) as [|q l IH]; cbn; [ring|]. rewrite IH. ring.
  Qed.
  Lemma gW_sym tr : (forall o, In o tr -> length o = d) -> Forall2 (wrel n f K) (gW m2 (rescaled u v tr)) (gW m tr).
  Proof.
    intros Hd. unfold gW, ew, rescaled. rewrite map_map. apply Forall2_map_map. intros o I i j Hi Hj.
    rewrite go_density_sym by (auto). destruct Hs as (_ & _ & M & _). rewrite (M i j Hi Hj). ring.
  Qed.
  Lemma sigma_sym : pos_sigma d m2.
  Proof.
    destruct Hs as (N & _ & _ & Mo). intros i q Hi Hq. rewrite N in Hi. destruct (Mo i q Hi Hq) as [_ ->].
    apply Rmult_lt_0_compat; [apply Hu, Hq|]. apply Hsg; [apply Hf; exact Hi|exact Hq].
  Qed.
  Variable set : list (list (list R) * Z).
  Hypothesis Hwf : wf_gohmm d m.
  Hypothesis Hnn : nonneg_mat (go_mat m).
  Hypothesis Hwf2 : wf_gohmm d m2.
  Hypothesis Hd : obs_dim d set.
  Notation set2 := (rewritten (rescaled u v) c set).
  Notation one := (fun (_ : list (list R)) (_ : nat) => 1).

  Lemma go_nn_sym : nonneg_mat (go_mat m2).
  Proof.
    destruct Hs as (N & _ & M & _). intros r Ir x Ix. apply (mat_from_entries (go_mat m2) (go_n m2) (fun y => 0 <= y)) with (r := r); [apply Hwf2| |exact Ir|exact Ix].
    intros i j Hi Hj. rewrite N in Hi, Hj. change (@mget R RNum) with matR. rewrite M by assumption. apply (mget_nonneg (go_mat m)). exact Hnn.
  Qed.
  Lemma dim_sym : obs_dim d set2.
  Proof.
    intros y w I o Io. apply In_rewritten in I. destruct I as (x & t & -> & -> & I). unfold rescaled in Io. apply in_map_iff in Io.
    destruct Io as [o' [<- Io]]. rewrite resc_dim. exact (Hd x t I o' Io).
  Qed.
  (** states without expected visits keep their deviation only up to a square root *)
  Hypothesis Hvis : (forall q, (q < d)%nat -> u q = 1) \/ (forall s, (s < n)%nat -> gDEN m set s <> 0).
  Lemma round_go_sym p : same_round (same_gohmm d f u v) (IZR c) (- (IZR c * Sum d (fun q => ln (u q)) * set_moves (go_trace_density_move m) (@length _) set))
    (round_GoHMM p d set m) (round_GoHMM p d set2 m2).
  Proof.
    pose proof go_nn_sym as Hnn2. pose proof sigma_sym as Hsg2. pose proof dim_sym as Hd2. pose proof Hs as (N & In & Ma & Mo).
    pose proof (scale_pos d u Hu) as Kp.
    assert (In' : forall i, (i < n)%nat -> @vget R RNum (go_ini m2) i = @vget R RNum (go_ini m) (f i)) by exact In.
    assert (HW : forall x t, List.In (x, t) set -> Forall2 (wrel n f K) (gW m2 (rescaled u v x)) (gW m x)) by (intros x t I; apply gW_sym; exact (Hd x t I)).
    assert (H1 : forall x t, List.In (x, t) set -> forall i, (i < n)%nat -> one (rescaled u v x) i = one x (f i)) by reflexivity.
    assert (Hdx : forall x t, List.In (x, t) set -> forall o, List.In o (rescaled u v x) -> length o = d).
    { intros x t I o Io. apply in_map_iff in Io. destruct Io as [o' [<- Io]]. rewrite resc_dim. exact (Hd x t I o' Io). }
    assert (HN : forall x t, List.In (x, t) set -> (processWork_GoHMM m2 d (rescaled u v x) (c * t) = None <-> processWork_GoHMM m d x t = None)).
    { intros x t I. rewrite (pw_go m2 d Hwf2 Hsg2) by exact (Hdx x t I). rewrite (pw_go m d Hwf Hsg) by exact (Hd x t I). rewrite N.
      pose proof (P_sym_zero n f K (rescaled u v) set (vget (go_ini m)) (vget (go_ini m2)) (gW m) (gW m2) one one Hf Kp In' HW H1 x t I) as Q.
      destruct (Req_EM_T _ 0), (Req_EM_T _ 0); split; intros; (reflexivity || discriminate || tauto). }
    pose proof (unwrap_sym p (processWork_GoHMM m d) (processWork_GoHMM m2 d) (rescaled u v) c set HN) as U.
    assert (Cp : 0 < IZR c) by (apply (IZR_lt 0); exact Hc).
    assert (HO : forall x t, List.In (x, t) set -> ones1 (gW m2) (rescaled u v x) = ones1 (gW m) x).
    { intros x t I. apply (ones_sym n f K (rescaled u v) set (gW m) (gW m2)) with (t := t); [exact HW|exact I]. }
    assert (D : forall i, (i < n)%nat -> gDEN m2 set2 i = IZR c * gDEN m set (f i)).
    { intros i Hi. unfold gDEN. rewrite N. apply (GA_sym n f K (rescaled u v)); auto. }
    assert (SM : forall i q, (i < n)%nat -> (q < d)%nat -> gSUM m2 set2 i q (fun x => x) = IZR c * (u q * gSUM m set (f i) q (fun x => x) + v q * gDEN m set (f i))).
    { intros i q Hi Hq. unfold gSUM at 1. rewrite N.
      rewrite (GA_sym n f K (rescaled u v) c set _ _ (gW m) (gW m2) one one Hf Kp In' HW H1 _ (fun x => map (fun o => u q * nth q o 0 + v q) x)); auto.
      - f_equal. unfold gSUM, gDEN, GA. rewrite (Rmult_comm (u q)), (Rmult_comm (v q)), <- !psum_scal_r, <- psum_plus. apply psum_ext. intros x t I _.
        rewrite (wsum_affine (u q) (v q) (fun o => nth q o 0) _ x (length (gW m x))).
        + unfold ones1. ring.
        + rewrite gam_length. unfold gW. rewrite ew_length. reflexivity.
        + unfold gW. rewrite ew_length. reflexivity.
      - intros x t I. unfold rescaled. rewrite map_map. apply map_ext_in. intros o Io. apply resc_nth. rewrite (Hd x t I o Io). exact Hq. }
    assert (SV : forall i q, (i < n)%nat -> (q < d)%nat -> gSUM m2 set2 i q (fun x => (x - mean m2 i q) * (x - mean m2 i q))
        = IZR c * (u q * u q * gSUM m set (f i) q (fun x => (x - mean m (f i) q) * (x - mean m (f i) q)))).
    { intros i q Hi Hq. unfold gSUM at 1. rewrite N.
      rewrite (GA_sym n f K (rescaled u v) c set _ _ (gW m) (gW m2) one one Hf Kp In' HW H1 _ (fun x => map (fun y => u q * u q * y) (map (fun o => (nth q o 0 - mean m (f i) q) * (nth q o 0 - mean m (f i) q)) x))); auto.
      - f_equal. unfold gSUM. apply GA_scal. reflexivity.
      - intros x t I. unfold rescaled. rewrite !map_map. apply map_ext_in. intros o Io. rewrite resc_nth by (rewrite (Hd x t I o Io); exact Hq).
        destruct (Mo i q Hi Hq) as [-> _]. ring. }
    destruct (round_GoHMM p d set m) as [[m' ll]|e] eqn:E1; destruct (round_GoHMM p d set2 m2) as [[m2' ll2]|e2] eqn:E2; cbn [same_round];
      [|unfold round_GoHMM, update_GoHMM in E1, E2; errs U..].
    destruct (round_GoHMM_spec m d Hwf Hsg set Hd Hnn p m' ll E1) as (B & C & D1 & Lo & Ro & Li & G & GM & GV & GI & L & _).
    destruct (round_GoHMM_spec m2 d Hwf2 Hsg2 set2 Hd2 Hnn2 p m2' ll2 E2) as (B2 & C2 & D2 & Lo2 & Ro2 & Li2 & G2 & GM2 & GV2 & GI2 & L2 & _).
    split.
    - unfold same_gohmm. rewrite C, C2. split; [exact N|]. split; [|split].
      + intros i Hi. change vecR with (@vget R RNum). rewrite GI2 by (rewrite N; exact Hi). rewrite GI by (apply Hf; exact Hi).
        assert (EI : forall k, (k < n)%nat -> gIN m2 set2 k = IZR c * gIN m set (f k)).
        { intros k Hk. unfold gIN. rewrite N. apply (IN_sym n f K (rescaled u v)); auto. }
        rewrite N, EI by exact Hi. rewrite (Sum_ext n (gIN m2 set2) (fun k => IZR c * gIN m set (f k))) by exact EI.
        rewrite Sum_scal_l, (Sum_renum n f (gIN m set) Hf). unfold Rdiv. rewrite Rinv_mult.
        replace (IZR c * gIN m set (f i) * (/ IZR c * / Sum n (gIN m set))) with (IZR c * / IZR c * (gIN m set (f i) * / Sum n (gIN m set))) by ring.
        rewrite Rinv_r by lra. ring.
      + intros i j Hi Hj. change matR with (@mget R RNum). rewrite G2 by (rewrite N; assumption). rewrite G by (apply Hf; assumption).
        rewrite (est_sym (IZR c) 1 (gDEN m set (f i)) _ (gNUM m set (f i)) _ (mget (go_mat m) (f i)) _ (f j) j); auto; [ring| |rewrite Rmult_1_l; apply Ma; assumption].
        rewrite Rmult_1_l. unfold gNUM. rewrite N. apply (XI_sym n f K (rescaled u v)); auto.
      + intros i q Hi Hq. rewrite GM2, GV2 by (rewrite ?N; assumption). rewrite GM, GV by (try apply Hf; assumption).
        rewrite SM, SV, D by assumption. destruct (Mo i q Hi Hq) as [Em Es]. rewrite Em, Es. pose proof (Hu q Hq) as Uq.
        destruct (Req_EM_T (gDEN m set (f i)) 0) as [Z|Z]; destruct (Req_EM_T (IZR c * gDEN m set (f i)) 0) as [Z'|Z'].
        * split; [reflexivity|]. destruct Hvis as [V|V]; [rewrite V by exact Hq; rewrite !Rmult_1_l; reflexivity|]. exfalso. apply (V (f i)); [apply Hf; exact Hi|exact Z].
        * exfalso. apply Z'. rewrite Z. ring.
        * apply Rmult_integral in Z'. destruct Z'; [lra|contradiction].
        * split; [field; split; [exact Z|lra]|].
          replace (IZR c * (u q * u q * gSUM m set (f i) q (fun x => (x - mean m (f i) q) * (x - mean m (f i) q))) / (IZR c * gDEN m set (f i)))
            with (u q * u q * (gSUM m set (f i) q (fun x => (x - mean m (f i) q) * (x - mean m (f i) q)) / gDEN m set (f i))) by (field; split; [exact Z|lra]).
          rewrite sqrt_mult_alt by nra. rewrite sqrt_square by lra. reflexivity.
    - rewrite L, L2, N.
      pose proof (set_ll_sym n f K (rescaled u v) c set (vget (go_ini m)) (vget (go_ini m2)) (gW m) (gW m2) one one Hf Kp In' HW H1) as Q.
      rewrite Q, ln_scale by exact Hu.
      replace (jumps n set (vget (go_ini m)) (gW m) one) with (set_moves (go_trace_density_move m) (@length (list R)) set); [ring|].
      unfold jumps, psum, set_moves. apply sumL_ext. intros [x t] I. cbn [fst snd].
      rewrite gP_path. unfold gW. rewrite ew_length. reflexivity.
  Qed.
End GO.

(** One learning round: in other units and with the states renumbered, the result
    is the same model in these units.  The unit may change only if every state is
    visited (all transitions possible), see [C144_gohmm_unit_refuted]. *)
Theorem C144_gohmm_round : forall d f u v c (m m2 : gohmm R) set p, renumbering (go_n m) f -> (forall q, (q < d)%nat -> 0 < u q) -> (0 < c)%Z ->
  wf_gohmm d m -> nonneg_mat (go_mat m) -> pos_sigma d m -> wf_gohmm d m2 -> same_gohmm d f u v m m2 -> obs_dim d set ->
  (forall q, (q < d)%nat -> u q = 1) \/ (go_full d m /\ pos_times set /\ exists o, observed set o) ->
  same_round (same_gohmm d f u v) (IZR c) (- (IZR c * Sum d (fun q => ln (u q)) * set_moves (go_trace_density_move m) (@length _) set))
    (round_GoHMM p d set m) (round_GoHMM p d (rewritten (rescaled u v) c set) m2).
Proof.
  intros d f u v c m m2 set p Hf Hu Hc W N Sg W2 Hs Hd HV. apply round_go_sym; try assumption.
  destruct HV as [V|(F & HT & Ho)]; [left; exact V|right]. intros s Hs'. pose proof (full_DEN d m set F Hd HT s Ho Hs'). lra.
Qed.
Print Assumptions C144_gohmm_round.

Lemma full_moves d m set : go_full d m -> obs_dim d set -> set_moves (go_trace_density_move m) (@length _) set = sumL set (fun st => IZR (snd st) * INR (length (fst st))).
Proof.
  intros F Hd. unfold set_moves. apply sumL_ext. intros [x t] I. cbn [fst snd]. pose proof (full_P d m F x (Hd x t I)) as P. rewrite gP_path in P.
  destruct (Rlt_dec _ _); [reflexivity|contradiction].
Qed.
(** The whole learning loop, for the complete models the learner draws by default. *)
Theorem C144_gohmm_fit : forall d f u v c (m m2 : gohmm R) set p eps max_it, renumbering (go_n m) f -> (forall q, (q < d)%nat -> 0 < u q) -> (0 < c)%Z ->
  wf_gohmm d m -> go_full d m -> wf_gohmm d m2 -> same_gohmm d f u v m m2 -> obs_dim d set -> pos_times set -> varied d set ->
  same_fit (same_gohmm d f u v) (IZR c) (- (IZR c * Sum d (fun q => ln (u q)) * sumL set (fun st => IZR (snd st) * INR (length (fst st)))))
    (bw_loop (round_GoHMM p d set) eps max_it None 0 m)
    (bw_loop (round_GoHMM p d (rewritten (rescaled u v) c set)) (IZR c * eps) max_it None 0 m2).
Proof.
  intros d f u v c m m2 set p eps max_it Hf Hu Hc W F W2 Hs Hd HT V.
  apply (same_fit_weaken (fun x y => same_gohmm d f u v x y /\ (go_n x = go_n m /\ wf_gohmm d x /\ go_full d x) /\ wf_gohmm d y)); [intros x y [H _]; exact H|].
  apply (bw_loop_sym _ (IZR c) _) with (prev := None); [apply (IZR_lt 0); exact Hc| |tauto].
  intros x y (Hxy & (Hn & Wx & Fx) & Wy). rewrite <- Hn in Hf. pose proof (full_nonneg d x Wx Fx) as Nx. pose proof Fx as (_ & Sx & _).
  pose proof (C144_gohmm_round d f u v c x y set p Hf Hu Hc Wx Nx Sx Wy Hxy Hd (or_intror (conj Fx (conj HT (proj1 V))))) as Q.
  rewrite (full_moves d x set Fx Hd) in Q.
  destruct (round_GoHMM p d set x) as [[x' l]|] eqn:E1, (round_GoHMM p d _ y) as [[y' l2]|] eqn:E2; cbn in Q |- *; try exact Q. destruct Q as [Q1 Q2].
  split; [|exact Q2]. split; [exact Q1|].
  destruct (round_go_ok d x set p x' l (conj Wx Nx) Sx Hd E1 HT) as [[O1 _] [O2 _]].
  split; [split; [congruence|split; [exact O1|exact (round_full d x set p x' l Wx Fx Hd HT V E1)]]|].
  apply (round_go_ok d y _ p y' l2) in E2; [apply E2| | | |apply pos_rewritten; assumption].
  - split; [exact Wy|]. apply (go_nn_sym d f u v x y); assumption.
  - apply (sigma_sym d f u v x y); assumption.
  - apply (dim_sym d); assumption.
Qed.
Print Assumptions C144_gohmm_fit.

Theorem C144_gohmm_likelihood : forall d f u v c (m m2 : gohmm R) s, renumbering (go_n m) f -> (forall q, (q < d)%nat -> 0 < u q) -> (0 < c)%Z ->
  wf_gohmm d m -> pos_sigma d m -> wf_gohmm d m2 -> same_gohmm d f u v m m2 ->
  (forall tr, (forall o, In o tr -> length o = d) ->
     go_trace_density m2 (rescaled u v tr) = exp (- Sum d (fun q => ln (u q))) ^ length tr * go_trace_density m tr) /\
  (usable s -> (forall tr o, In tr (seqs s) -> In o tr -> length o = d) -> (forall q, (q < d)%nat -> u q = 1) ->
     go_logLikelihood m2 (reset (rescaled u v) c s) = go_logLikelihood m s).
Proof.
  intros d f u v c m m2 s Hf Hu Hc W Sg W2 Hs. pose proof Hs as (N & I & M & O).
  assert (T : forall tr, (forall o, In o tr -> length o = d) ->
     go_trace_density m2 (rescaled u v tr) = exp (- Sum d (fun q => ln (u q))) ^ length tr * go_trace_density m tr).
  { intros tr Hd. unfold go_trace_density. rewrite N. unfold rescaled at 1 2. rewrite map_length, map_map.
    rewrite <- ln_scale by exact Hu. rewrite exp_ln by (apply scale_pos; exact Hu).
    destruct tr as [|o tr]; [unfold trace_prob; cbn; ring|].
    rewrite (trace_prob_sym (go_n m) f 1 (scale d u) _ (vecR (go_ini m)) _ (repeat (matR (go_mat m)) (length (o :: tr) - 1)) _ (map (go_density m) (o :: tr))).
    - rewrite pow1, map_length. ring.
    - exact Hf.
    - discriminate.
    - exact I.
    - apply Forall2_repeat. intros i j Hi Hj. rewrite M by assumption. ring.
    - apply Forall2_map_map. intros x Ix i Hi. apply (go_density_sym d f u v m m2); auto. }
  split; [exact T|]. intros U Hd U1. rewrite (C27_gohmm_logLikelihood m d s W Sg Hd U). rewrite (C27_gohmm_logLikelihood m2 d).
  - rewrite weighted_reset. f_equal. apply avg_ll_sym; [exact Hc|]. intros tr t It. apply in_combine_l in It. rewrite T by exact (fun o => Hd tr o It).
    replace (Sum d (fun q => ln (u q))) with 0; [rewrite Ropp_0, exp_0, pow1; ring|].
    rewrite (Sum_ext d _ (fun _ => 0)); [rewrite Sum_const; ring|]. intros q Hq. rewrite U1 by exact Hq. apply ln_1.
  - exact W2.
  - apply (sigma_sym d f u v m m2); assumption.
  - intros tr o It Io. cbn [reset seqs] in It. apply in_map_iff in It. destruct It as [tr' [<- It]]. unfold rescaled in Io. apply in_map_iff in Io.
    destruct Io as [o' [<- Io]]. rewrite resc_dim. exact (Hd tr' o' It Io).
  - apply usable_reset; auto. intros x. apply map_nil_inv.
Qed.
Print Assumptions C144_gohmm_likelihood.

(** A change of unit is not harmless when a state has no expected visit: its
    deviation is replaced by its square root. *)
Definition unvisited (a : R) : gohmm R := mkGO [[1; 0]; [0; 1]] [[(0, a)]; [(0, 4 * a)]] [1; 0] "u"%string.
Lemma unvisited_ok a : 0 < a -> wf_gohmm 1 (unvisited a) /\ nonneg_mat (go_mat (unvisited a)) /\ pos_sigma 1 (unvisited a).
Proof.
  intros Ha. split; [|split].
  - unfold wf_gohmm, square, go_n; cbn. repeat split; auto; try (intros r [<-|[<-|[]]]; reflexivity). intros x [<-|[<-|[]]]; lra.
  - intros r [<-|[<-|[]]] x [<-|[<-|[]]]; lra.
  - intros s k Hs Hk. assert (k = 0)%nat by lia. subst k. unfold go_n in Hs; cbn in Hs. destruct s as [|[|s]]; [| |lia]; unfold stddev; cbn; lra.
Qed.
Lemma unvisited_round a x : 0 < a -> exists m' ll, round_GoHMM 1 1 [([[x]], 1%Z)] (unvisited a) = Ok (m', ll) /\ stddev m' 1 0 = sqrt (4 * a).
Proof.
  intros Ha. destruct (unvisited_ok a Ha) as (W & N & Sg). set (ts := [([[x]], 1%Z)]).
  assert (Hd : obs_dim 1 ts) by (intros tr t [I|[]] o Io; inversion I; subst; destruct Io as [<-|[]]; reflexivity).
  assert (P : 0 < go_trace_density_move (unvisited a) [[x]]).
  { assert (Dp : 0 < go_density (unvisited a) [x] 0) by (apply (go_density_pos 1); auto; cbn; lia).
    unfold go_trace_density_move. rewrite trace_prob_move_tot. unfold tot, Sum, sumL, go_n. cbn -[go_density]. unfold Sum, sumL. cbn -[go_density]. nR.
    nra. }
  destruct (round_go_succeeds 1 (unvisited a) ts 1) as (m' & ll & E); auto; [split; assumption| |right; intros tr t [I|[]]; inversion I; subst; exact P|].
  { exists [[x]], 1%Z. split; [left; reflexivity|exact P]. }
  exists m', ll. split; [exact E|].
  destruct (round_GoHMM_spec (unvisited a) 1 W Sg ts Hd N 1 m' ll E) as (_ & _ & _ & _ & _ & _ & _ & _ & GV & _).
  rewrite GV by (cbn; lia). assert (D : gDEN (unvisited a) ts 1 = 0).
  { unfold gDEN, GA, psum, ts. cbn [sumL map rsum fold_right]. unfold sumL; cbn [map rsum fold_right fst snd].
    destruct (Rlt_dec _ _); [|toR; lra]. unfold gW, ew. cbn [map gam]. unfold ones1, wsum. cbn. nR. toR. ring. }
  rewrite D. destruct (Req_EM_T 0 0); [reflexivity|lra].
Qed.
Theorem C144_gohmm_unit_refuted : exists (m m2 m' m2' : gohmm R) set ll ll2,
  wf_gohmm 1 m /\ nonneg_mat (go_mat m) /\ pos_sigma 1 m /\ wf_gohmm 1 m2 /\ same_gohmm 1 (fun i => i) (fun _ => 2) (fun _ => 0) m m2 /\ obs_dim 1 set /\ pos_times set /\
  round_GoHMM 1 1 set m = Ok (m', ll) /\ round_GoHMM 1 1 (rewritten (rescaled (fun _ => 2) (fun _ => 0)) 1 set) m2 = Ok (m2', ll2) /\
  ~ same_gohmm 1 (fun i => i) (fun _ => 2) (fun _ => 0) m' m2'.
Proof.
  destruct (unvisited_round 1 1 ltac:(lra)) as (m' & ll & E & S1). destruct (unvisited_round 2 (2 * 1 + 0) ltac:(lra)) as (m2' & ll2 & E2 & S2).
  destruct (unvisited_ok 1 ltac:(lra)) as (W & N & Sg). destruct (unvisited_ok 2 ltac:(lra)) as (W2 & _ & _).
  exists (unvisited 1), (unvisited 2), m', m2', [([[1]], 1%Z)], ll, ll2. repeat (split; [assumption|]).
  split.
  { split; [reflexivity|]. split; [reflexivity|]. split; [reflexivity|]. unfold go_n; cbn. intros i q Hi Hq. assert (q = 0)%nat as -> by lia.
    destruct i as [|[|i]]; [| |lia]; unfold mean, stddev; cbn; split; lra. }
  assert (Hd : obs_dim 1 [([[1]], 1%Z)]) by (intros tr t [I|[]] o Io; inversion I; subst; destruct Io as [<-|[]]; reflexivity).
  split; [exact Hd|]. split; [intros x [<-|[]]; cbn; lia|]. split; [exact E|]. split; [exact E2|].
  intros (_ & _ & _ & Mo). pose proof (round_GoHMM_spec (unvisited 1) 1 W Sg _ Hd N 1 m' ll E) as (_ & C & _).
  destruct (Mo 1%nat 0%nat) as [_ Q]; [rewrite C; cbn; lia|lia|]. rewrite S1, S2 in Q.
  replace (4 * 1) with (2 * 2) in Q by lra. rewrite sqrt_square in Q by lra.
  assert (sqrt (4 * 2) * sqrt (4 * 2) = 4 * 2) by (apply sqrt_sqrt; lra). nra.
Qed.
Print Assumptions C144_gohmm_unit_refuted.
