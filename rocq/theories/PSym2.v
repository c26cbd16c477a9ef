(** Theorems C144 and C145 for continuous-time chains: numbering of the states,
    names of the labels, scale of the counts, unit of time. *)
From Coq Require Import String ZArith Bool Reals List Lia Lra Psatz FunctionalExtensionality Classical_Prop.
From Verif Require Import Num Py SNum SPath LSum MSet SSet MModels MLik MBW LFB LEM SBW LBW LBWSet LBWMC LBWMDP LBWCT LBWLoop SLik LLik LLik2 LPath LEMGen PLik PBWMC PBWCT PBWCTU SSym LSym PSym.
Import ListNotations.
Local Open Scope R_scope.

(** The same fixed rates. *)
Definition same_fixed (n : nat) (f : nat -> nat) (fixed fixed2 : list (list bool)) : Prop :=
  forall i j, (i < n)%nat -> (j < n)%nat -> is_fixed fixed2 i j = is_fixed fixed (f i) (f j).

Section Timed.
  Variables (f : nat -> nat) (g : string -> string) (k : R) (c : Z) (m m2 : ctmc R).
  Notation n := (ct_n m).
  Hypothesis Hf : renumbering n f.
  Hypothesis Hg : renaming g.
  Hypothesis Hk : 0 < k.
  Hypothesis Hc : (0 < c)%Z.
  Hypothesis Hs : same_ctmc f g k m m2.
  Hypothesis Hwf : wf_ctmc m.
  Hypothesis Hwf2 : wf_ctmc m2.

  Lemma exit_sym i : (i < n)%nat -> exit_rate m2 i = k * exit_rate m (f i).
  Proof.
    intros Hi. destruct Hs as (N & _ & _ & M). unfold exit_rate.
    rewrite (row_sum_Sum (ct_mat m2) n i) by (try exact Hi; rewrite <- N; apply Hwf2).
    rewrite (row_sum_Sum (ct_mat m) n (f i)) by (try apply Hf; try exact Hi; apply Hwf).
    rewrite <- (Sum_renum n f (mget (ct_mat m) (f i)) Hf), <- Sum_scal_l. apply Sum_ext. intros j Hj. apply (M i j Hi Hj).
  Qed.
  Lemma jump_density_sym t i j : (i < n)%nat -> (j < n)%nat -> jump_density m2 (t / k) i j = k * jump_density m t (f i) (f j).
  Proof.
    intros Hi Hj. unfold jump_density. rewrite exit_sym by exact Hi. destruct Hs as (_ & _ & _ & M). rewrite (M i j Hi Hj).
    replace (k * exit_rate m (f i) * (t / k)) with (exit_rate m (f i) * t) by (field; lra). ring.
  Qed.
  Lemma ots_sym tr : ots (retimed g k tr) = map (fun ot => (g (fst ot), snd ot / k)) (ots tr).
  Proof.
    unfold ots, retimed. cbn [fst snd]. assert (E : removelast (map g (fst tr)) = map g (removelast (fst tr))).
    { generalize (fst tr). intros l. induction l as [|x [|y l] IH]; [reflexivity|reflexivity|]. cbn [map removelast] in *. f_equal. exact IH. }
    rewrite E. generalize (removelast (fst tr)) (snd tr). intros l. induction l as [|x l IH]; intros [|t ts]; cbn; try reflexivity. f_equal. apply IH.
  Qed.
  Lemma tW_sym tr : Forall2 (wrel n f k) (tW m2 (retimed g k tr)) (tW m tr).
  Proof.
    rewrite <- !ct_ws_eq, ots_sym, map_map. apply Forall2_map_map. intros [o t] _ i j Hi Hj. rewrite !ct_w_eq.
    cbn [fst snd]. rewrite jump_density_sym by assumption. destruct Hs as (_ & L & _). rewrite (is_label_sym (ct_lab m) _ g o i f Hg (L i Hi)). ring.
  Qed.
  Lemma tf_sym tr : fst tr <> [] -> forall i, (i < n)%nat -> tf m2 (retimed g k tr) i = tf m tr (f i).
  Proof.
    intros NE i Hi. unfold tf, retimed. cbn [fst].
    assert (E : last (map g (fst tr)) EmptyString = g (last (fst tr) EmptyString)).
    { revert NE. generalize (fst tr). intros l NE. induction l as [|x [|y l] IH]; [congruence|reflexivity|]. exact (IH ltac:(discriminate)). }
    rewrite E. destruct Hs as (_ & L & _). apply (is_label_sym _ _ g _ i f Hg (L i Hi)).
  Qed.
  Lemma tc_sym tr : tc (retimed g k tr) = map (fun x => / k * x) (tc tr).
  Proof. unfold tc. rewrite ots_sym, !map_map. apply map_ext. intros [o t]. cbn [fst snd]. unfold Rdiv. ring. Qed.
  Lemma ct_density_sym tr : length (fst tr) = S (length (snd tr)) -> ct_density m2 (retimed g k tr) = k ^ length (snd tr) * ct_density m tr.
  Proof.
    intros L. pose proof Hs as (N & La & I & M). unfold ct_density, retimed. cbn [fst snd]. rewrite N, !map_map.
    rewrite (trace_prob_sym n f k 1 _ (vecR (ct_ini m)) _ (map (jump_density m) (snd tr)) _ (map (is_label (ct_lab m)) (fst tr))).
    - rewrite pow1, map_length. ring.
    - exact Hf.
    - destruct (fst tr); discriminate.
    - exact I.
    - apply Forall2_map_map. intros t _ i j Hi Hj. apply jump_density_sym; assumption.
    - apply Forall2_map_map. intros x _ i Hi. rewrite (is_label_sym (ct_lab m) _ g x i f Hg (La i Hi)). ring.
  Qed.

  Variable set : list ((list string * list R) * Z).
  Variables fixed fixed2 : list (list bool).
  Hypothesis Hfix : same_fixed n f fixed fixed2.
  Hypothesis Hnn : nonneg_mat (ct_mat m).
  Hypothesis Hts : timed_set set.
  Notation set2 := (rewritten (retimed g k) c set).

  Lemma ct_nn_sym : nonneg_mat (ct_mat m2).
  Proof.
    destruct Hs as (N & _ & _ & M). intros r Ir x Ix. apply (mat_from_entries (ct_mat m2) (ct_n m2) (fun y => 0 <= y)) with (r := r); [apply Hwf2| |exact Ir|exact Ix].
    intros i j Hi Hj. rewrite N in Hi, Hj. change (@mget R RNum) with matR. rewrite M by assumption. apply Rmult_le_pos; [lra|]. apply (mget_nonneg (ct_mat m)). exact Hnn.
  Qed.
  Lemma ts_sym : timed_set set2.
  Proof.
    intros y u I. apply In_rewritten in I. destruct I as (x & t & -> & -> & I). destruct (Hts x t I) as [L D]. unfold retimed. cbn [fst snd].
    rewrite !map_length. split; [exact L|]. intros d Id. apply in_map_iff in Id. destruct Id as [d' [<- Id]]. specialize (D d' Id).
    unfold Rdiv. apply Rmult_le_pos; [exact D|]. apply Rlt_le, Rinv_0_lt_compat, Hk.
  Qed.
  Lemma GA_scal {S} n0 (st : list (S * Z)) a W fo r (c1 c2 : S -> list R) s : (forall x t, In (x, t) st -> c2 x = map (fun y => r * y) (c1 x)) ->
    GA n0 st a W fo c2 s = r * GA n0 st a W fo c1 s.
  Proof.
    intros E. unfold GA. rewrite (Rmult_comm r), <- psum_scal_r. apply psum_ext. intros x t I _. rewrite (E x t I), wsum_map_scal_r. ring.
  Qed.
  Lemma round_ct_sym p : same_round (same_ctmc f g k) (IZR c) (IZR c * ln k * set_moves (ct_density m) (fun tr => length (snd tr)) set)
    (round_CTMC_timed p fixed set m) (round_CTMC_timed p fixed2 set2 m2).
  Proof.
    pose proof ct_nn_sym as Hnn2. pose proof Hs as (N & Lb & In & Ma).
    assert (In' : forall i, (i < n)%nat -> @vget R RNum (ct_ini m2) i = @vget R RNum (ct_ini m) (f i)) by exact In.
    assert (HW : forall x t, List.In (x, t) set -> Forall2 (wrel n f k) (tW m2 (retimed g k x)) (tW m x)) by (intros; apply tW_sym).
    assert (H1 : forall x t, List.In (x, t) set -> forall i, (i < n)%nat -> tf m2 (retimed g k x) i = tf m x (f i)).
    { intros x t I. apply tf_sym. destruct (Hts x t I) as [L _]. intros E. rewrite E in L. discriminate. }
    assert (HN : forall x t, List.In (x, t) set -> (processWork_CTMC_timed m2 fixed2 (retimed g k x) (c * t) = None <-> processWork_CTMC_timed m fixed x t = None)).
    { intros x t I. rewrite (pw_timed m2 Hwf2), (pw_timed m Hwf), N.
      pose proof (P_sym_zero n f k (retimed g k) set (vget (ct_ini m)) (vget (ct_ini m2)) (tW m) (tW m2) (tf m) (tf m2) Hf Hk In' HW H1 x t I) as Q.
      destruct (Req_EM_T _ 0), (Req_EM_T _ 0); split; intros; (reflexivity || discriminate || tauto). }
    pose proof (@unwrap_sym (@timed R) (@timed R) _ _ p (processWork_CTMC_timed m fixed) (processWork_CTMC_timed m2 fixed2) (retimed g k) c set HN) as U.
    assert (Cp : 0 < IZR c) by (apply (IZR_lt 0); exact Hc).
    destruct (round_CTMC_timed p fixed set m) as [[m' ll]|e] eqn:E1; destruct (round_CTMC_timed p fixed2 set2 m2) as [[m2' ll2]|e2] eqn:E2; cbn [same_round];
      [|unfold round_CTMC_timed, update_CTMC in E1, E2; change (list string * list R)%type with (@timed R) in E1, E2; errs U..].
    destruct (update_CTMC_spec m fixed set (tW m) (tf m) tc _ (t_work m Hwf fixed set) (t_P_nonneg m Hwf set Hnn) p m' ll E1) as (B1 & B2 & B3 & B4 & B5 & G & L & _).
    destruct (update_CTMC_spec m2 fixed2 set2 (tW m2) (tf m2) tc _ (t_work m2 Hwf2 fixed2 set2) (t_P_nonneg m2 Hwf2 set2 Hnn2) p m2' ll2 E2) as (D1 & D2 & D3 & D4 & D5 & G2 & L2 & _).
    split.
    - unfold same_ctmc. rewrite B4, D4, B1, D1, B2, D2. split; [exact N|]. split; [exact Lb|]. split; [exact In|].
      intros i j Hi Hj. change matR with (@mget R RNum). rewrite G2 by (rewrite N; assumption). rewrite G by (apply Hf; assumption).
      rewrite Rmult_plus_distr_l. pose proof (Hfix i j Hi Hj) as Fx. change is_fixed with fixed_get in Fx. rewrite Fx. f_equal.
      + change (mget (ct_mat m2) i j) with (matR (ct_mat m2) i j). rewrite (Ma i j Hi Hj). change (mget (ct_mat m) (f i) (f j)) with (matR (ct_mat m) (f i) (f j)). ring.
      + apply (est_sym (IZR c * / k) k).
        * apply Rmult_lt_0_compat; [exact Cp|apply Rinv_0_lt_compat, Hk].
        * unfold cDEN. rewrite N.
          rewrite (GA_sym n f k (retimed g k) c set (vget (ct_ini m)) (vget (ct_ini m2)) (tW m) (tW m2) (tf m) (tf m2) Hf Hk In' HW H1 tc (fun x => map (fun y => / k * y) (tc x)) i (fun x t I => tc_sym x) Hi).
          rewrite (GA_scal n set _ (tW m) (tf m) (/ k) tc) by reflexivity. ring.
        * unfold cNUM. rewrite Fx. destruct (fixed_get fixed (f i) (f j)); [ring|]. unfold cXI. rewrite N.
          rewrite (XI_sym n f k (retimed g k) c set (vget (ct_ini m)) (vget (ct_ini m2)) (tW m) (tW m2) (tf m) (tf m2) Hf Hk In' HW H1 (ones1 (tW m2)) (ones1 (tW m)) i j); auto.
          -- field. lra.
          -- intros x t I. apply (ones_sym n f k (retimed g k) set (tW m) (tW m2)) with (t := t); [exact HW|exact I].
        * exact (Ma i j Hi Hj).
    - rewrite L, L2, N.
      pose proof (set_ll_sym n f k (retimed g k) c set (vget (ct_ini m)) (vget (ct_ini m2)) (tW m) (tW m2) (tf m) (tf m2) Hf Hk In' HW H1) as Q.
      rewrite Q. f_equal. f_equal. unfold jumps, psum, set_moves. apply sumL_ext. intros [x t] I. cbn [fst snd]. destruct (Hts x t I) as [Lx _].
      rewrite tP_path by exact Lx. destruct (Rlt_dec 0 (ct_density m x)); [|reflexivity].
      f_equal. f_equal. unfold tW. rewrite ew_length. unfold ots. rewrite combine_length, rl_len, Nat.min_id by exact Lx. reflexivity.
  Qed.
End Timed.

(** C144, timed traces: the renumbered and renamed chain with rates multiplied by
    [k], on the traces with times divided by [k] and counts multiplied by [c],
    gives the corresponding result.  The log-likelihood is shifted by a constant. *)
Theorem C144_ctmc_timed_round : forall f g k c (m m2 : ctmc R) fixed fixed2 set p, renumbering (ct_n m) f -> renaming g -> 0 < k -> (0 < c)%Z ->
  wf_ctmc m -> nonneg_mat (ct_mat m) -> wf_ctmc m2 -> same_ctmc f g k m m2 -> same_fixed (ct_n m) f fixed fixed2 -> timed_set set ->
  same_round (same_ctmc f g k) (IZR c) (IZR c * ln k * set_moves (ct_density m) (fun tr => length (snd tr)) set)
    (round_CTMC_timed p fixed set m) (round_CTMC_timed p fixed2 (rewritten (retimed g k) c set) m2).
Proof. intros. apply round_ct_sym; assumption. Qed.
Print Assumptions C144_ctmc_timed_round.

Theorem C144_ctmc_timed_fit : forall f g k c (m m2 : ctmc R) fixed fixed2 set p eps max_it, renumbering (ct_n m) f -> renaming g -> 0 < k -> (0 < c)%Z ->
  wf_ctmc m -> nonneg_mat (ct_mat m) -> wf_ctmc m2 -> same_ctmc f g k m m2 -> same_fixed (ct_n m) f fixed fixed2 -> timed_set set -> pos_times set ->
  same_fit (same_ctmc f g k) (IZR c) (IZR c * ln k * set_moves (ct_density m) (fun tr => length (snd tr)) set)
    (bw_loop (round_CTMC_timed p fixed set) eps max_it None 0 m)
    (bw_loop (round_CTMC_timed p fixed2 (rewritten (retimed g k) c set)) (IZR c * eps) max_it None 0 m2).
Proof.
  intros f g k c m m2 fixed fixed2 set p eps max_it Hf Hg Hk Hc W N W2 Hs Hfix A HT.
  apply (same_fit_weaken (fun x y => same_ctmc f g k x y /\ (ct_n x = ct_n m /\ ct_ok x) /\ ct_ok y /\
     (forall tr t, In (tr, t) set -> (0 < ct_density m tr <-> 0 < ct_density x tr)))); [intros x y [H _]; exact H|].
  pose proof (ts_sym g k c Hk set A) as A2.
  apply (bw_loop_sym _ (IZR c) _) with (prev := None); [apply (IZR_lt 0); exact Hc| |].
  - intros x y (Hxy & [Hn [Wx Nx]] & [Wy Ny] & Hd). rewrite <- Hn in Hf, Hfix.
    pose proof (C144_ctmc_timed_round f g k c x y fixed fixed2 set p Hf Hg Hk Hc Wx Nx Wy Hxy Hfix A) as Q.
    replace (set_moves (ct_density x) (fun tr => length (snd tr)) set) with (set_moves (ct_density m) (fun tr => length (snd tr)) set) in Q.
    2:{ unfold set_moves. apply sumL_ext. intros [tr t] I. cbn [fst snd]. specialize (Hd tr t I).
        destruct (Rlt_dec 0 (ct_density m tr)), (Rlt_dec 0 (ct_density x tr)); tauto. }
    destruct (round_CTMC_timed p fixed set x) as [[x' l]|] eqn:E1, (round_CTMC_timed p fixed2 _ y) as [[y' l2]|] eqn:E2; cbn in Q |- *; try exact Q. destruct Q as [Q1 Q2].
    split; [|exact Q2]. split; [exact Q1|].
    destruct (round_ct_ok x fixed set p x' l (conj Wx Nx) A HT E1) as [O1 [O2 _]].
    destruct (round_ct_ok y fixed2 _ p y' l2 (conj Wy Ny) A2 (pos_rewritten _ _ _ Hc HT) E2) as [O3 _].
    split; [split; [congruence|exact O1]|]. split; [exact O3|]. intros tr t I. rewrite (Hd tr t I).
    apply (C41_ctmc_timed_round_likelihood x x' fixed p set l Wx Nx A HT E1) with (t := t). exact I.
  - split; [exact Hs|]. split; [split; [reflexivity|split; assumption]|]. split; [split; [exact W2|apply (ct_nn_sym f g k m m2); assumption]|tauto].
Qed.
Print Assumptions C144_ctmc_timed_fit.

(** Density of a timed trace, and log-likelihood in an unchanged unit of time. *)
Theorem C144_ctmc_timed_likelihood : forall f g k c (m m2 : ctmc R) set, renumbering (ct_n m) f -> renaming g -> 0 < k -> (0 < c)%Z ->
  wf_ctmc m -> wf_ctmc m2 -> same_ctmc f g k m m2 -> timed_set set -> pos_times set ->
  (forall tr, length (fst tr) = S (length (snd tr)) -> ct_density m2 (retimed g k tr) = k ^ length (snd tr) * ct_density m tr) /\
  (k = 1 -> ct_logLikelihood_timed m2 (rewritten (retimed g k) c set) = ct_logLikelihood_timed m set).
Proof.
  intros f g k c m m2 set Hf Hg Hk Hc W W2 Hs A HT.
  assert (T : forall tr, length (fst tr) = S (length (snd tr)) -> ct_density m2 (retimed g k tr) = k ^ length (snd tr) * ct_density m tr).
  { intros tr L. apply (ct_density_sym f g k m m2); assumption. }
  split; [exact T|]. intros ->.
  assert (T1 : forall tr t, In (tr, t) set -> ct_density m2 (retimed g 1 tr) = ct_density m tr).
  { intros tr t I. rewrite T by apply (A tr t I). rewrite pow1. ring. }
  pose proof (ts_sym g 1 c Hk set A) as A2. pose proof (pos_rewritten (retimed g 1) c set Hc HT) as HT2.
  destruct (C27_ctmc_timed_logLikelihood m set W HT (fun tr t I => proj1 (A tr t I))) as [K1 K2].
  destruct (C27_ctmc_timed_logLikelihood m2 _ W2 HT2 (fun tr t I => proj1 (A2 tr t I))) as [J1 J2].
  destruct (classic (exists tr t, In (tr, t) set /\ 0 < ct_density m tr /\ ct_density m tr <> 1)) as [Ex|Nx].
  - rewrite K1 by exact Ex. rewrite J1.
    + f_equal. apply avg_ll_sym; [exact Hc|]. exact T1.
    + destruct Ex as (tr & t & I & P & Q). exists (retimed g 1 tr), (c * t)%Z. split; [apply in_map_iff; exists (tr, t); auto|].
      rewrite (T1 tr t I). auto.
  - assert (Z : forall tr t, In (tr, t) set -> ct_density m tr <= 0 \/ ct_density m tr = 1).
    { intros tr t I. destruct (Rle_lt_dec (ct_density m tr) 0) as [L|L]; [auto|]. destruct (Req_dec (ct_density m tr) 1) as [E|E]; [auto|].
      exfalso. apply Nx. eauto 6. }
    rewrite K2 by exact Z. rewrite J2; [reflexivity|]. intros y u I. apply In_rewritten in I. destruct I as (x & t & -> & -> & I).
    rewrite (T1 x t I). apply (Z x t I).
Qed.
Print Assumptions C144_ctmc_timed_likelihood.

(** ** Untimed traces *)
Section Untimed.
  Variables (f : nat -> nat) (g : string -> string) (k : R) (c : Z) (m m2 : ctmc R).
  Notation n := (ct_n m).
  Hypothesis Hf : renumbering n f.
  Hypothesis Hg : renaming g.
  Hypothesis Hk : 0 < k.
  Hypothesis Hc : (0 < c)%Z.
  Hypothesis Hs : same_ctmc f g k m m2.
  Hypothesis Hwf : wf_ctmc m.
  Hypothesis Hwf2 : wf_ctmc m2.
  Lemma jump_sym i j : (i < n)%nat -> (j < n)%nat -> jump m2 i j = jump m (f i) (f j).
  Proof.
    intros Hi Hj. unfold jump. rewrite (exit_sym f g k m m2) by assumption. destruct Hs as (_ & _ & _ & M). rewrite (M i j Hi Hj).
    unfold Rdiv. rewrite Rinv_mult. replace (k * matR (ct_mat m) (f i) (f j) * (/ k * / exit_rate m (f i))) with (k * / k * (matR (ct_mat m) (f i) (f j) * / exit_rate m (f i))) by ring.
    rewrite Rinv_r by lra. ring.
  Qed.
  Lemma jc_sym : same_mc f g (jump_chain m) (jump_chain m2).
  Proof.
    destruct Hs as (N & L & I & M). unfold same_mc. rewrite !jc_n. split; [exact N|]. split; [exact L|]. split; [exact I|].
    intros i j Hi Hj. change matR with (@mget R RNum). rewrite !jc_mat by assumption. apply jump_sym; assumption.
  Qed.
  Variables fixed fixed2 : list (list bool).
  Variable set : list (list string * Z).
  Hypothesis Hfix : same_fixed n f fixed fixed2.
  Hypothesis Hnn : nonneg_mat (ct_mat m).
  Hypothesis Hk1 : k = 1.
  Notation set2 := (rewritten (map g) c set).
  Notation one := (fun (_ : list string) (_ : nat) => 1).
  Notation uW x := (mc_ws (jump_chain x)).
  Lemma round_ctu_sym p : same_round (same_ctmc f g k) (IZR c) 0 (round_CTMC_untimed p fixed set m) (round_CTMC_untimed p fixed2 set2 m2).
  Proof.
    pose proof (ct_nn_sym f g k m m2 Hk Hs Hwf2 Hnn) as Hnn2. pose proof Hs as (N & Lb & In & Ma).
    assert (In' : forall i, (i < n)%nat -> @vget R RNum (ct_ini m2) i = @vget R RNum (ct_ini m) (f i)) by exact In.
    assert (Hf' : renumbering (mc_n (jump_chain m)) f) by (rewrite jc_n; exact Hf).
    assert (HW : forall x t, List.In (x, t) set -> Forall2 (wrel n f 1) (uW m2 (map g x)) (uW m x)).
    { intros x t _. rewrite <- (jc_n m). apply (mc_ws_sym f g (jump_chain m) (jump_chain m2) Hg jc_sym). }
    assert (H1 : forall x t, List.In (x, t) set -> forall i, (i < n)%nat -> one (map g x) i = one x (f i)) by reflexivity.
    assert (HN : forall x t, List.In (x, t) set -> (processWork_CTMC_untimed m2 fixed2 (map g x) (c * t) = None <-> processWork_CTMC_untimed m fixed x t = None)).
    { intros x t I. rewrite (pw_untimed m2 Hwf2), (pw_untimed m Hwf), N.
      pose proof (P_sym_zero n f 1 (map g) set (vget (ct_ini m)) (vget (ct_ini m2)) (uW m) (uW m2) one one Hf Rlt_0_1 In' HW H1 x t I) as Q.
      destruct (Req_EM_T _ 0), (Req_EM_T _ 0); split; intros; (reflexivity || discriminate || tauto). }
    pose proof (unwrap_sym p (processWork_CTMC_untimed m fixed) (processWork_CTMC_untimed m2 fixed2) (map g) c set HN) as U.
    assert (Cp : 0 < IZR c) by (apply (IZR_lt 0); exact Hc).
    destruct (round_CTMC_untimed p fixed set m) as [[m' ll]|e] eqn:E1; destruct (round_CTMC_untimed p fixed2 set2 m2) as [[m2' ll2]|e2] eqn:E2; cbn [same_round];
      [|unfold round_CTMC_untimed, update_CTMC in E1, E2; errs U..].
    destruct (update_CTMC_spec m fixed set (uW m) one (ones1 (uW m)) _ (fun x t _ => pw_untimed m Hwf fixed x t) (fun x t _ => u_nonneg m Hwf Hnn x) p m' ll E1) as (B1 & B2 & B3 & B4 & B5 & G & L & _).
    destruct (update_CTMC_spec m2 fixed2 set2 (uW m2) one (ones1 (uW m2)) _ (fun x t _ => pw_untimed m2 Hwf2 fixed2 x t) (fun x t _ => u_nonneg m2 Hwf2 Hnn2 x) p m2' ll2 E2) as (D1 & D2 & D3 & D4 & D5 & G2 & L2 & _).
    assert (HO : forall x t, List.In (x, t) set -> ones1 (uW m2) (map g x) = ones1 (uW m) x).
    { intros x t I. apply (ones_sym n f 1 (map g) set (uW m) (uW m2)) with (t := t); [exact HW|exact I]. }
    split.
    - unfold same_ctmc. rewrite B4, D4, B1, D1, B2, D2. split; [exact N|]. split; [exact Lb|]. split; [exact In|].
      intros i j Hi Hj. change matR with (@mget R RNum). rewrite G2 by (rewrite N; assumption). rewrite G by (apply Hf; assumption).
      rewrite Rmult_plus_distr_l. pose proof (Hfix i j Hi Hj) as Fx. change is_fixed with fixed_get in Fx. rewrite Fx. f_equal.
      + change (mget (ct_mat m2) i j) with (matR (ct_mat m2) i j). rewrite (Ma i j Hi Hj). change (mget (ct_mat m) (f i) (f j)) with (matR (ct_mat m) (f i) (f j)). ring.
      + rewrite Hk1. apply (est_sym (IZR c) 1).
        * exact Cp.
        * unfold cDEN. rewrite N. apply (GA_sym n f 1 (map g)); auto; lra.
        * unfold cNUM. rewrite Fx. destruct (fixed_get fixed (f i) (f j)); [ring|]. unfold cXI. rewrite N, Rmult_1_l.
          apply (XI_sym n f 1 (map g)); auto; lra.
        * rewrite <- Hk1. exact (Ma i j Hi Hj).
    - rewrite L, L2, N.
      pose proof (set_ll_sym n f 1 (map g) c set (vget (ct_ini m)) (vget (ct_ini m2)) (uW m) (uW m2) one one Hf Rlt_0_1 In' HW H1) as Q.
      rewrite Q, ln_1. ring.
  Qed.
End Untimed.

Theorem C144_ctmc_untimed_round : forall f g c (m m2 : ctmc R) fixed fixed2 set p, renumbering (ct_n m) f -> renaming g -> (0 < c)%Z ->
  wf_ctmc m -> nonneg_mat (ct_mat m) -> wf_ctmc m2 -> same_ctmc f g 1 m m2 -> same_fixed (ct_n m) f fixed fixed2 ->
  same_round (same_ctmc f g 1) (IZR c) 0 (round_CTMC_untimed p fixed set m) (round_CTMC_untimed p fixed2 (rewritten (map g) c set) m2).
Proof. intros. apply round_ctu_sym; auto; lra. Qed.
Print Assumptions C144_ctmc_untimed_round.
Theorem C144_ctmc_untimed_fit : forall f g c (m m2 : ctmc R) fixed fixed2 set p eps max_it, renumbering (ct_n m) f -> renaming g -> (0 < c)%Z ->
  wf_ctmc m -> nonneg_mat (ct_mat m) -> live m -> wf_ctmc m2 -> same_ctmc f g 1 m m2 -> no_fixed fixed -> no_fixed fixed2 -> pos_times set ->
  same_fit (same_ctmc f g 1) (IZR c) 0 (bw_loop (round_CTMC_untimed p fixed set) eps max_it None 0 m)
    (bw_loop (round_CTMC_untimed p fixed2 (rewritten (map g) c set)) (IZR c * eps) max_it None 0 m2).
Proof.
  intros f g c m m2 fixed fixed2 set p eps max_it Hf Hg Hc W N Lv W2 Hs F1 F2 HT.
  assert (L2 : live m2).
  { intros i Hi. rewrite (proj1 Hs) in Hi. rewrite (exit_sym f g 1 m m2) by assumption. rewrite Rmult_1_l. apply Lv. apply Hf. exact Hi. }
  apply (same_fit_weaken (fun x y => same_ctmc f g 1 x y /\ (ct_n x = ct_n m /\ ct_ok x /\ live x) /\ ct_ok y /\ live y)); [intros x y [H _]; exact H|].
  apply (bw_loop_sym _ (IZR c) 0) with (prev := None); [apply (IZR_lt 0); exact Hc| |].
  - intros x y (Hxy & (Hn & [Wx Nx] & Lx) & [Wy Ny] & Ly). rewrite <- Hn in Hf.
    assert (Fx : same_fixed (ct_n x) f fixed fixed2) by (intros i j _ _; rewrite F1, F2; reflexivity).
    pose proof (C144_ctmc_untimed_round f g c x y fixed fixed2 set p Hf Hg Hc Wx Nx Wy Hxy Fx) as Q.
    destruct (round_CTMC_untimed p fixed set x) as [[x' l]|] eqn:E1, (round_CTMC_untimed p fixed2 _ y) as [[y' l2]|] eqn:E2; cbn in Q |- *; try exact Q. destruct Q as [Q1 Q2].
    split; [|exact Q2]. split; [exact Q1|].
    destruct (round_untimed x fixed p set x' l (conj Wx Nx) Lx F1 HT E1) as (_ & O1 & L1' & [O2 _] & _).
    destruct (round_untimed y fixed2 p _ y' l2 (conj Wy Ny) Ly F2 (pos_rewritten _ _ _ Hc HT) E2) as (_ & O3 & L3' & _).
    split; [split; [congruence|split; assumption]|]. split; assumption.
  - split; [exact Hs|]. split; [split; [reflexivity|split; [split|]; assumption]|]. split; [split; [exact W2|apply (ct_nn_sym f g 1 m m2); auto; lra]|exact L2].
Qed.
Print Assumptions C144_ctmc_untimed_fit.
(** The unit of the rates does not matter for untimed traces. *)
Theorem C144_ctmc_untimed_likelihood : forall f g k c (m m2 : ctmc R) s, renumbering (ct_n m) f -> renaming g -> 0 < k -> (0 < c)%Z ->
  wf_ctmc m -> wf_ctmc m2 -> same_ctmc f g k m m2 ->
  (forall tr, ct_trace_prob m2 (map g tr) = ct_trace_prob m tr) /\
  (usable s -> ct_logLikelihood m2 (reset (map g) c s) = ct_logLikelihood m s).
Proof.
  intros f g k c m m2 s Hf Hg Hk Hc W W2 Hs. pose proof Hs as (N & L & I & M).
  assert (T : forall tr, ct_trace_prob m2 (map g tr) = ct_trace_prob m tr).
  { intros tr. rewrite <- !jc_trace_prob by assumption.
    apply (C144_mc_likelihood f g c (jump_chain m) (jump_chain m2) s); auto; try (apply jc_wf; assumption); [rewrite jc_n; exact Hf|].
    apply (jc_sym f g k m m2); assumption. }
  split; [exact T|]. intros U. rewrite !C27_ctmc_logLikelihood; try assumption; [|apply usable_reset; auto; intros x; apply map_nil_inv].
  rewrite weighted_reset. f_equal. apply avg_ll_sym; [exact Hc|]. intros; apply T.
Qed.
Print Assumptions C144_ctmc_untimed_likelihood.
