(** The waiting time of a state of a CTMC: C143. *)
From Coq Require Import String ZArith Bool Reals Lra Lia List.
From Verif Require Import Num Py SNum LSum MTools LTools SPath SBW SLik MModels MCtor MLik LLik.
Import ListNotations.
Local Open Scope R_scope.

(** ** Specification *)
(** [v] is the integral of [f] between [a] and [b]. *)
Definition integral (f : R -> R) (a b v : R) : Prop := exists pr : Riemann_integrable f a b, RiemannInt pr = v.
(** The integral of [f] from 0 to infinity is [v]. *)
Definition integral_to_inf (f : R -> R) (v : R) : Prop :=
  forall eps, 0 < eps -> exists B, 0 <= B /\ forall b, B <= b -> exists w, integral f 0 b w /\ Rabs (w - v) < eps.

(** ** Proofs *)
Lemma ftc (F g : R -> R) a b : (forall x, derivable_pt_lim F x (g x)) -> continuity g -> a <= b -> integral g a b (F b - F a).
Proof.
  intros D C L. pose (D' := fun x => exist _ (g x) (D x) : derivable_pt F x). assert (C' : continuity (derive F D')) by exact C.
  assert (pr : Riemann_integrable g a b) by (apply continuity_implies_RiemannInt; [exact L|intros x _; apply C]).
  exists pr. exact (@FTC_Riemann (mkC1 C') a b pr).
Qed.
Lemma integral_ext f g a b v : a <= b -> (forall x, a <= x <= b -> f x = g x) -> integral f a b v -> integral g a b v.
Proof.
  intros L E [pr <-]. assert (pr' : Riemann_integrable g a b) by (apply (Riemann_integrable_ext g (f := f)); [rewrite Rmin_left, Rmax_right by exact L; exact E|exact pr]).
  exists pr'. symmetry. apply RiemannInt_P18; [exact L|]. intros x Hx. apply E. lra.
Qed.
Lemma d_exp e x : derivable_pt_lim (fun t => exp (- e * t)) x (- e * exp (- e * x)).
Proof.
  assert (A : derivable_pt_lim (fun t => - e * t) x (- e)). { pose proof (derivable_pt_lim_scal id (- e) x 1 (derivable_pt_lim_id x)) as H. rewrite Rmult_1_r in H. exact H. }
  pose proof (derivable_pt_lim_comp _ exp x _ _ A (derivable_pt_lim_exp _)) as H. rewrite Rmult_comm. exact H.
Qed.
Lemma cont_of_deriv (f f' : R -> R) : (forall x, derivable_pt_lim f x (f' x)) -> continuity f.
Proof. intros D x. apply derivable_continuous_pt. exists (f' x). apply D. Qed.
Lemma exp_tail e b : 0 < e -> 0 < b -> exp (- e * b) < / (e * b).
Proof.
  intros Pe Pb. replace (- e * b) with (- (e * b)) by ring. rewrite exp_Ropp. assert (0 < e * b) by nra. apply Rinv_lt_contravar; [apply Rmult_lt_0_compat; [assumption|apply exp_pos]|].
  pose proof (exp_ineq1 (e * b)). lra.
Qed.

(** The likelihood is the density of the exponential distribution whose rate is the
    exit rate of the state: nothing below 0; its integral over an interval, over
    all waiting times, and its mean, which is the expected time. *)
Theorem C143_lkl_density : forall (m : ctmc R) s, 0 < exit_rate m s ->
  (forall t, t < 0 -> ct_lkl m s t = 0) /\
  (forall t, 0 <= t -> 0 < ct_lkl m s t) /\
  (forall a b, 0 <= a <= b -> integral (ct_lkl m s) a b (exp (- exit_rate m s * a) - exp (- exit_rate m s * b))) /\
  integral_to_inf (ct_lkl m s) 1 /\
  integral_to_inf (fun t => t * ct_lkl m s t) (ct_expected_time m s).
Proof.
  intros m s P. set (e := exit_rate m s) in *.
  assert (V : forall t, 0 <= t -> ct_lkl m s t = e * exp (- e * t)).
  { intros t L. unfold ct_lkl. change (ct_e m s) with e. toR. rewrite ?Rltb_leb. nR. rewrite (proj2 (Rleb_true 0 t)) by exact L. cbn [negb]. f_equal. f_equal. ring. }
  assert (CE : continuity (fun t => e * exp (- e * t))) by (apply continuity_scal; apply (cont_of_deriv _ _ (d_exp e))).
  assert (I1 : forall a b, 0 <= a <= b -> integral (ct_lkl m s) a b (exp (- e * a) - exp (- e * b))).
  { intros a b L. apply (integral_ext (fun t => e * exp (- e * t))); [lra|intros x Hx; rewrite V by lra; reflexivity|].
    replace (exp (- e * a) - exp (- e * b)) with (- exp (- e * b) - - exp (- e * a)) by ring. apply (ftc (fun t => - exp (- e * t)) _ a b); [|exact CE|lra].
    intros x. replace (e * exp (- e * x)) with (- (- e * exp (- e * x))) by ring. apply (derivable_pt_lim_opp (fun t => exp (- e * t))), d_exp. }
  split; [|split; [|split; [exact I1|split]]].
  - intros t L. unfold ct_lkl. toR. rewrite ?Rltb_leb. nR. rewrite (proj2 (Rleb_false 0 t)) by exact L. reflexivity.
  - intros t L. rewrite V by exact L. apply Rmult_lt_0_compat; [exact P|apply exp_pos].
  - intros eps Pe. assert (Q : 0 < / (e * eps)) by (apply Rinv_0_lt_compat, Rmult_lt_0_compat; assumption). exists (/ (e * eps)). split; [lra|]. intros b L. eexists. split; [apply I1; lra|].
    rewrite Rmult_0_r, exp_0. replace (1 - exp (- e * b) - 1) with (- exp (- e * b)) by ring. rewrite Rabs_Ropp, Rabs_right by (left; apply exp_pos).
    apply Rlt_le_trans with (/ (e * b)); [apply exp_tail; lra|]. apply Rmult_le_reg_l with (e * b); [nra|]. rewrite Rinv_r by nra.
    apply (Rmult_le_compat_l (e * eps)) in L; [|nra]. rewrite Rinv_r in L by nra. nra.
  - assert (DG : forall x, derivable_pt_lim (fun t => - ((t + / e) * exp (- e * t))) x (x * (e * exp (- e * x)))).
    { intros x. replace (x * (e * exp (- e * x))) with (- (1 * exp (- e * x) + (x + / e) * (- e * exp (- e * x)))) by (field; lra).
      apply (derivable_pt_lim_opp (fun t => (t + / e) * exp (- e * t))). apply (derivable_pt_lim_mult (fun t => t + / e) (fun t => exp (- e * t))); [|apply d_exp].
      replace 1 with (1 + 0) by ring. apply (derivable_pt_lim_plus (fun t => t) (fun _ => / e)); [apply derivable_pt_lim_id|apply derivable_pt_lim_const]. }
    assert (CG : continuity (fun x => x * (e * exp (- e * x)))) by (apply (continuity_mult (fun x => x)); [apply derivable_continuous, derivable_id|exact CE]).
    intros eps Pe. set (B := 2 * (/ e + / (e * e * eps) * 8)).
    assert (Pi : 0 < / e) by (apply Rinv_0_lt_compat, P). assert (Pq : 0 < e * e * eps) by (repeat apply Rmult_lt_0_compat; assumption). assert (Q : 0 < / (e * e * eps)) by (apply Rinv_0_lt_compat; exact Pq).
    exists B. split; [unfold B; lra|]. intros b L. exists (- ((b + / e) * exp (- e * b)) - - ((0 + / e) * exp (- e * 0))). split.
    + apply (integral_ext (fun t => t * (e * exp (- e * t)))); [unfold B in L; lra|intros x Hx; rewrite V by lra; reflexivity|]. apply (ftc (fun t => - ((t + / e) * exp (- e * t)))); [exact DG|exact CG|unfold B in L; lra].
    + rewrite Rmult_0_r, exp_0. unfold ct_expected_time. change (ct_e m s) with e. nR. unfold Rdiv.
      replace (- ((b + / e) * exp (- e * b)) - - ((0 + / e) * 1) - 1 * / e) with (- ((b + / e) * exp (- e * b))) by ring.
      rewrite Rabs_Ropp. assert (Pb : 0 < b) by (unfold B in L; lra). rewrite Rabs_right by (left; apply Rmult_lt_0_compat; [lra|apply exp_pos]).
      assert (T : exp (- e * b) = exp (- e * (b * / 2)) * exp (- e * (b * / 2))) by (rewrite <- exp_plus; f_equal; field).
      pose proof (exp_tail e (b * / 2) P ltac:(lra)) as H. assert (Pt : 0 < exp (- e * (b * / 2))) by apply exp_pos.
      assert (Lb : b + / e <= 2 * b) by (unfold B in L; lra).
      set (x := exp (- e * (b * / 2))) in *. assert (Hx : x * (e * b) < 2).
      { assert (K : x * (e * (b * / 2)) < 1). { apply Rmult_lt_reg_r with (/ (e * (b * / 2))); [apply Rinv_0_lt_compat; nra|]. rewrite Rmult_assoc, Rinv_r, Rmult_1_l, Rmult_1_r by nra. exact H. } lra. }
      rewrite T. assert (K1 : (b + / e) * (x * x) <= 2 * b * (x * x)) by (apply Rmult_le_compat_r; nra).
      assert (K2 : (x * (e * b)) * (x * (e * b)) < 4) by (assert (0 < x * (e * b)) by (apply Rmult_lt_0_compat; [exact Pt|nra]); nra).
      assert (K3 : 8 < b * (e * e * eps)).
      { assert (L' : / (e * e * eps) * 8 < b) by (unfold B in L; lra). apply (Rmult_lt_compat_r (e * e * eps)) in L'; [|exact Pq]. replace (/ (e * e * eps) * 8 * (e * e * eps)) with 8 in L' by (field; split; lra). exact L'. }
      assert (K4 : 2 * b * (x * x) * (e * e * b) < eps * (e * e * b)) by (apply Rlt_trans with 8; [replace (2 * b * (x * x) * (e * e * b)) with (2 * ((x * (e * b)) * (x * (e * b)))) by ring; lra|replace (eps * (e * e * b)) with (b * (e * e * eps)) by ring; exact K3]).
      assert (0 < e * e * b) by (repeat apply Rmult_lt_0_compat; assumption). apply Rmult_lt_reg_r in K4; [lra|assumption].
Qed.
Print Assumptions C143_lkl_density.

(** The probability to be still in the state after [t] is the product, over the
    transitions, of the probabilities that the exponential sample of the transition
    exceeds [t]: [run] takes the smallest sample. *)
Theorem C143_lkl_is_minimum : forall (m : ctmc R) s t, 0 < exit_rate m s -> 0 <= t ->
  integral (ct_lkl m s) 0 t (1 - fold_right Rmult 1 (map (fun r => exp (- r * t)) (nth s (ct_mat m) []))).
Proof.
  intros m s t P L. replace (fold_right _ _ _) with (exp (- exit_rate m s * t)).
  - destruct (C143_lkl_density m s P) as (_ & _ & I & _). specialize (I 0 t ltac:(lra)). rewrite Rmult_0_r, exp_0 in I. exact I.
  - change (exit_rate m s) with (rsum (nth s (ct_mat m) [])). induction (nth s (ct_mat m) []) as [|r l IH]; [cbn; rewrite Ropp_0, Rmult_0_l; apply exp_0|].
    cbn [map fold_right]. rewrite <- IH, <- exp_plus. f_equal. rewrite rsum_cons. ring.
Qed.
Print Assumptions C143_lkl_is_minimum.
(** A state without outgoing rate has likelihood 0 for every time. *)
Theorem C143_lkl_absorbing : forall (m : ctmc R) s t, exit_rate m s = 0 -> ct_lkl m s t = 0.
Proof. intros m s t E. unfold ct_lkl. change (ct_e m s) with (exit_rate m s). rewrite E. toR. nR. destruct (_ <? _)%num; [reflexivity|apply Rmult_0_l]. Qed.
Print Assumptions C143_lkl_absorbing.

Example C143_instance : let m := mkCTMC [[0; 2]; [1; 0]] ["init"; "a"]%string [1; 0] EmptyString in exit_rate m 0 = 2 /\ ct_lkl m 0 0 = 2 /\ integral (ct_lkl m 0) 0 1 (1 - exp (- 2 * 1)).
Proof.
  intros m. assert (E : exit_rate m 0 = 2) by (unfold exit_rate; cbn; lra). split; [exact E|].
  split.
  - unfold ct_lkl. change (ct_e m 0) with (exit_rate m 0). rewrite E. toR. rewrite ?Rltb_leb. nR. rewrite (proj2 (Rleb_true 0 0)) by lra. cbn [negb]. rewrite Rmult_0_r, Rminus_0_r, exp_0. lra.
  - destruct (C143_lkl_density m 0) as (_ & _ & I & _); [lra|]. specialize (I 0 1 ltac:(lra)). rewrite E, Rmult_0_r, exp_0 in I. exact I.
Qed.
