(** A minorisation lemma: solving one equation per parameter never decreases the
    sum of N ln(rate) - T rate, when the rates are monomials. *)
From Coq Require Import String ZArith Bool Reals List Lia Lra Psatz.
From Verif Require Import SNum LSum LEM.
Import ListNotations.
Local Open Scope R_scope.

Definition prodL {A} (l : list A) (f : A -> R) : R := fold_right Rmult 1 (map f l).
Lemma prodL_cons {A} (a : A) l f : prodL (a :: l) f = f a * prodL l f. Proof. reflexivity. Qed.
Lemma prodL_ext {A} (l : list A) f g : (forall a, In a l -> f a = g a) -> prodL l f = prodL l g.
Proof. intros E. unfold prodL. f_equal. apply map_ext_in. exact E. Qed.
Lemma prodL_one {A} (l : list A) f : (forall a, In a l -> f a = 1) -> prodL l f = 1.
Proof. induction l as [|a l IH]; intros E; [reflexivity|]. rewrite prodL_cons, IH, E by (intros; try apply E; cbn; auto). ring. Qed.
Lemma prodL_nonneg {A} (l : list A) f : (forall a, In a l -> 0 <= f a) -> 0 <= prodL l f.
Proof.
  induction l as [|a l IH]; intros E; [cbn; lra|]. rewrite prodL_cons. apply Rmult_le_pos; [apply E; left; reflexivity|].
  apply IH. intros; apply E; right; assumption.
Qed.
Lemma prodL_pos {A} (l : list A) f : (forall a, In a l -> 0 < f a) -> 0 < prodL l f.
Proof.
  induction l as [|a l IH]; intros E; [cbn; lra|]. rewrite prodL_cons. apply Rmult_lt_0_compat; [apply E; left; reflexivity|].
  apply IH. intros; apply E; right; assumption.
Qed.
Lemma prodL_zero {A} (l : list A) f a : In a l -> f a = 0 -> prodL l f = 0.
Proof.
  induction l as [|b l IH]; intros I Z; [destruct I|]. rewrite prodL_cons. destruct I as [->|I]; [rewrite Z; ring|]. rewrite IH by assumption. ring.
Qed.
Lemma prodL_mult {A} (l : list A) f g : prodL l (fun a => f a * g a) = prodL l f * prodL l g.
Proof. induction l as [|a l IH]; [cbn; ring|]. rewrite !prodL_cons, IH. ring. Qed.
Lemma ln_prodL {A} (l : list A) (f : A -> R) : (forall a, In a l -> 0 < f a) -> ln (prodL l f) = sumL l (fun a => ln (f a)).
Proof.
  induction l as [|a l IH]; intros E; [cbn; rewrite ln_1; reflexivity|]. rewrite prodL_cons, sumL_cons, ln_mult, IH; auto.
  - intros; apply E; right; assumption.
  - apply E; left; reflexivity.
  - apply prodL_pos. intros; apply E; right; assumption.
Qed.
Lemma ln_pow' x n : 0 < x -> ln (x ^ n) = INR n * ln x.
Proof. intros Hx. induction n as [|n IH]; [cbn; rewrite ln_1; ring|]. rewrite S_INR. cbn [pow]. rewrite ln_mult, IH by (auto using pow_lt). ring. Qed.

Lemma classic_zero {A} (l : list A) (a : A -> nat) (y : A -> R) : (forall p, In p l -> 0 <= y p) ->
  (exists p, In p l /\ (0 < a p)%nat /\ y p = 0) \/ (forall p, In p l -> (0 < a p)%nat -> 0 < y p).
Proof.
  induction l as [|b l IH]; intros Hy; [right; intros p []|].
  destruct IH as [(p & I & Q)|Q]; [intros; apply Hy; right; assumption|left; exists p; split; [right; exact I|exact Q]|].
  destruct (Req_dec (y b) 0) as [Z|Z]; [|right; intros p [->|I] Ap; [pose proof (Hy p (or_introl eq_refl)); lra|auto]].
  destruct (Nat.eq_dec (a b) 0) as [Z'|Z']; [right; intros p [->|I] Ap; [lia|auto]|].
  left. exists b. split; [left; reflexivity|]. split; [lia|exact Z].
Qed.
(** Weighted arithmetic and geometric means; integer weights [a] of sum [c]. *)
Lemma amgm {A} (l : list A) (a : A -> nat) (y : A -> R) (c : nat) :
  INR c = sumL l (fun p => INR (a p)) -> (0 < c)%nat -> (forall p, In p l -> 0 <= y p) ->
  INR c * (prodL l (fun p => y p ^ a p) - 1) <= sumL l (fun p => INR (a p) * (y p ^ c - 1)).
Proof.
  intros Ec Hc Hy. assert (Cp : 0 < INR c) by (apply lt_0_INR; exact Hc).
  assert (Cs : sumL l (fun p => INR (a p) * (y p ^ c - 1)) = sumL l (fun p => INR (a p) * y p ^ c) - INR c).
  { rewrite Ec, <- sumL_minus. apply sumL_ext. intros; ring. }
  rewrite Cs. enough (INR c * prodL l (fun p => y p ^ a p) <= sumL l (fun p => INR (a p) * y p ^ c)) by lra.
  assert (Nn : 0 <= sumL l (fun p => INR (a p) * y p ^ c)).
  { apply sumL_nonneg. intros p Ip. apply Rmult_le_pos; [apply pos_INR|apply pow_le; auto]. }
  destruct (classic_zero l a y Hy) as [[p [Ip [Ap Yp]]]|Hpos].
  - rewrite (prodL_zero l _ p Ip); [lra|]. rewrite Yp. apply pow_i. lia.
  - set (M := sumL l (fun p => INR (a p) * y p ^ c)) in *.
    assert (Hex : exists p, In p l /\ (0 < a p)%nat).
    { rewrite Ec in Cp. apply sumL_pos_exists in Cp. destruct Cp as [p [Ip Pp]]. exists p. split; [exact Ip|]. apply INR_lt. exact Pp. }
    assert (Mp : 0 < M).
    { destruct Hex as [p [Ip Ap]]. unfold M. apply (sumL_pos l _ p); auto.
      - intros q Iq. apply Rmult_le_pos; [apply pos_INR|apply pow_le; auto].
      - apply Rmult_lt_0_compat; [apply lt_0_INR; exact Ap|]. apply pow_lt. apply Hpos; assumption. }
    assert (E1 : prodL l (fun p => y p ^ a p) = prodL l (fun p => if Nat.eqb (a p) 0 then 1 else y p ^ a p)).
    { apply prodL_ext. intros p Ip. destruct (Nat.eqb_spec (a p) 0) as [->|]; reflexivity. }
    rewrite E1. set (G := prodL l _).
    assert (Gp : 0 < G).
    { apply prodL_pos. intros p Ip. destruct (Nat.eqb_spec (a p) 0); [lra|]. apply pow_lt. apply Hpos; [exact Ip|lia]. }
    assert (LG : INR c * ln G = sumL l (fun p => INR (a p) * ln (y p ^ c))).
    { unfold G. rewrite ln_prodL.
      - rewrite <- sumL_scal_l. apply sumL_ext. intros p Ip. destruct (Nat.eqb_spec (a p) 0) as [->|Na]; [rewrite ln_1; cbn; ring|].
        rewrite !ln_pow' by (apply Hpos; [exact Ip|lia]). ring.
      - intros p Ip. destruct (Nat.eqb_spec (a p) 0); [lra|]. apply pow_lt. apply Hpos; [exact Ip|lia]. }
    assert (LM : ln G <= ln (M / INR c)).
    { apply (Rmult_le_reg_l (INR c)); [exact Cp|]. rewrite LG.
      assert (Q : 0 < M / INR c) by (apply Rdiv_lt_0_compat; assumption).
      assert (B : sumL l (fun p => INR (a p) * (ln (y p ^ c) - ln (M / INR c))) <= sumL l (fun p => INR (a p) * (y p ^ c / (M / INR c) - 1))).
      { apply sumL_le. intros p Ip. destruct (Nat.eq_dec (a p) 0) as [->|Na]; [cbn; lra|]. apply Rmult_le_compat_l; [apply pos_INR|].
        assert (Yp : 0 < y p ^ c) by (apply pow_lt, Hpos; [exact Ip|lia]).
        pose proof (ln_le_sub1 (y p ^ c / (M / INR c)) (Rdiv_lt_0_compat _ _ Yp Q)) as L.
        unfold Rdiv in L at 1. rewrite ln_mult in L by (auto using Rinv_0_lt_compat). rewrite ln_Rinv in L by exact Q. lra. }
      rewrite (sumL_ext l (fun p => INR (a p) * (ln (y p ^ c) - ln (M / INR c))) (fun p => INR (a p) * ln (y p ^ c) - INR (a p) * ln (M / INR c))) in B by (intros; ring).
      rewrite (sumL_ext l (fun p => INR (a p) * (y p ^ c / (M / INR c) - 1)) (fun p => INR (a p) * y p ^ c * (/ (M / INR c)) - INR (a p))) in B by (intros; unfold Rdiv; ring).
      rewrite !sumL_minus, !sumL_scal_r, <- Ec in B. fold M in B. replace (M * / (M / INR c)) with (INR c) in B by (field; lra). lra. }
    assert (GM : G <= M / INR c).
    { destruct (Rle_lt_dec G (M / INR c)) as [|L]; [assumption|]. apply ln_increasing in L; [lra|]. apply Rdiv_lt_0_compat; assumption. }
    apply (Rmult_le_compat_l (INR c)) in GM; [|lra]. replace (INR c * (M / INR c)) with M in GM by (field; lra). exact GM.
Qed.

Section MM.
  Context {T A : Type}.
  Variables (L : list T) (Ps : list A) (N D r r' : T -> R) (a : A -> T -> nat) (y : A -> R).
  Definition deg (t : T) : nat := fold_right Nat.add 0%nat (map (fun p => a p t) Ps).
  Lemma deg_INR t : INR (deg t) = sumL Ps (fun p => INR (a p t)).
  Proof. unfold deg. induction Ps as [|p l IH]; [reflexivity|]. cbn [map fold_right]. rewrite plus_INR, IH, sumL_cons. reflexivity. Qed.
  Lemma deg_ge p t : In p Ps -> (a p t <= deg t)%nat.
  Proof. unfold deg. induction Ps as [|q l IH]; intros I; [destruct I|]. cbn. destruct I as [->|I]; [lia|]. specialize (IH I). lia. Qed.

  Hypothesis HN : forall t, In t L -> 0 <= N t.
  Hypothesis HD : forall t, In t L -> 0 <= D t.
  Hypothesis Hr : forall t, In t L -> 0 <= r t.
  Hypothesis HNr : forall t, In t L -> 0 < N t -> 0 < r t.
  Hypothesis Hy : forall p, In p Ps -> 0 <= y p.
  Hypothesis Hr' : forall t, In t L -> r' t = r t * prodL Ps (fun p => y p ^ a p t).
  (** each parameter is unchanged, or solves its equation *)
  Hypothesis Heq : forall p, In p Ps -> y p = 1 \/
    sumL L (fun t => INR (a p t) * (D t * r t * y p ^ deg t)) = sumL L (fun t => INR (a p t) * N t).

  Lemma mm_pos p t : In p Ps -> In t L -> (0 < a p t)%nat -> 0 < N t -> 0 < y p.
  Proof.
    intros Ip It Ha Nt. pose proof (Hy p Ip). destruct (Req_dec (y p) 0) as [Z|Z]; [|lra]. exfalso.
    destruct (Heq p Ip) as [E|E]; [lra|].
    rewrite (sumL_zero_ext L (fun t => INR (a p t) * (D t * r t * y p ^ deg t))) in E.
    - assert (0 < sumL L (fun t => INR (a p t) * N t)); [|lra]. apply (sumL_pos L _ t); auto.
      + intros u Iu. apply Rmult_le_pos; [apply pos_INR|auto].
      + apply Rmult_lt_0_compat; [apply lt_0_INR; exact Ha|exact Nt].
    - intros u Iu. destruct (Nat.eq_dec (a p u) 0) as [->|Na]; [cbn; ring|]. pose proof (deg_ge p u Ip). rewrite Z, pow_i by lia. ring.
  Qed.
  Lemma mm_supp t : In t L -> 0 < N t -> 0 < r' t.
  Proof.
    intros It Nt. rewrite Hr' by exact It. apply Rmult_lt_0_compat; [auto|]. apply prodL_pos. intros p Ip.
    destruct (Nat.eq_dec (a p t) 0) as [->|Na]; [cbn; lra|]. apply pow_lt. apply (mm_pos p t); auto. lia.
  Qed.
  Lemma mm_log t : In t L -> N t * ln (r' t / r t) = sumL Ps (fun p => INR (a p t) * N t * ln (y p)).
  Proof.
    intros It. destruct (Req_dec (N t) 0) as [Z|Z].
    - rewrite Z, Rmult_0_l. symmetry. apply sumL_zero_ext. intros; ring.
    - assert (Nt : 0 < N t) by (pose proof (HN t It); lra). pose proof (HNr t It Nt) as Rp.
      rewrite Hr' by exact It. replace (r t * prodL Ps (fun p => y p ^ a p t) / r t) with (prodL Ps (fun p => y p ^ a p t)) by (field; lra).
      rewrite (ln_prodL Ps).
      + rewrite <- sumL_scal_l. apply sumL_ext. intros p Ip. destruct (Nat.eq_dec (a p t) 0) as [->|Na]; [cbn; rewrite ln_1; ring|].
        rewrite ln_pow' by (apply (mm_pos p t); auto; lia). ring.
      + intros p Ip. destruct (Nat.eq_dec (a p t) 0) as [->|Na]; [cbn; lra|]. apply pow_lt, (mm_pos p t); auto. lia.
  Qed.
  (** share of a parameter in the decrease of the exit rate *)
  Definition share (p : A) (t : T) : R := match deg t with O => 0 | _ => D t * r t * (INR (a p t) * (y p ^ deg t - 1)) / INR (deg t) end.
  Lemma mm_rate t : In t L -> D t * (r' t - r t) <= sumL Ps (fun p => share p t).
  Proof.
    intros It. rewrite Hr' by exact It. unfold share. destruct (deg t) eqn:Ed.
    - rewrite sumL_zero. rewrite (prodL_one Ps); [apply Req_le; ring|]. intros p Ip. pose proof (deg_ge p t Ip). replace (a p t) with O by lia. reflexivity.
    - assert (B : INR (deg t) * (prodL Ps (fun p => y p ^ a p t) - 1) <= sumL Ps (fun p => INR (a p t) * (y p ^ deg t - 1))).
      { apply amgm; [apply deg_INR|lia|exact Hy]. }
      rewrite Ed in B. assert (Cp : 0 < INR (S n)) by (apply lt_0_INR; lia).
      rewrite (sumL_ext Ps _ (fun p => D t * r t / INR (S n) * (INR (a p t) * (y p ^ S n - 1)))) by (intros; unfold Rdiv; ring).
      rewrite sumL_scal_l. apply Rle_trans with (D t * r t / INR (S n) * (INR (S n) * (prodL Ps (fun p => y p ^ a p t) - 1))).
      + apply Req_le. field. lra.
      + apply Rmult_le_compat_l; [|exact B]. unfold Rdiv. apply Rmult_le_pos; [apply Rmult_le_pos; auto|]. apply Rlt_le, Rinv_0_lt_compat, Cp.
  Qed.
  Lemma mm_param p : In p Ps -> 0 <= sumL L (fun t => INR (a p t) * N t * ln (y p)) - sumL L (fun t => share p t).
  Proof.
    intros Ip. destruct (Heq p Ip) as [E|E].
    - rewrite E, ln_1. rewrite (sumL_zero_ext L (fun t => INR (a p t) * N t * 0)) by (intros; ring).
      rewrite sumL_zero_ext; [lra|]. intros t It. unfold share. destruct (deg t); [reflexivity|]. rewrite E, pow1. unfold Rdiv. ring.
    - pose proof (Hy p Ip) as Y0. rewrite sumL_scal_r, <- E. destruct (Req_dec (y p) 0) as [Z|Z].
      + rewrite (sumL_zero_ext L (fun t => INR (a p t) * (D t * r t * y p ^ deg t))).
        * assert (sumL L (fun t => share p t) <= 0); [|lra]. rewrite <- (sumL_zero L). apply sumL_le. intros t It. unfold share. destruct (deg t) eqn:Ed; [lra|].
          rewrite Z, pow_i by lia. assert (Cp : 0 < / INR (S n)) by (apply Rinv_0_lt_compat, lt_0_INR; lia).
          assert (0 <= D t * r t * INR (a p t) * / INR (S n)); [|unfold Rdiv; lra].
          repeat apply Rmult_le_pos; auto using pos_INR; lra.
        * intros u Iu. destruct (Nat.eq_dec (a p u) 0) as [->|Na]; [cbn; ring|]. pose proof (deg_ge p u Ip). rewrite Z, pow_i by lia. ring.
      + assert (Yp : 0 < y p) by lra. rewrite <- sumL_scal_r, <- sumL_minus. apply sumL_nonneg. intros t It. unfold share.
        destruct (Nat.eq_dec (a p t) 0) as [Za|Na]; [rewrite Za; destruct (deg t); cbn [INR]; unfold Rdiv; lra|].
        pose proof (deg_ge p t Ip) as Ge. destruct (deg t) eqn:Ed; [lia|]. rewrite <- Ed in *. clear Ed n.
        assert (Cp : 0 < INR (deg t)) by (apply lt_0_INR; lia). set (c := INR (deg t)) in *.
        assert (Pp : 0 < y p ^ deg t) by (apply pow_lt; exact Yp).
        (* y^c - 1 <= c y^c ln y *)
        pose proof (ln_le_sub1 (/ (y p ^ deg t)) (Rinv_0_lt_compat _ Pp)) as B. rewrite ln_Rinv, ln_pow' in B by assumption. fold c in B.
        apply (Rmult_le_compat_l (y p ^ deg t)) in B; [|lra]. rewrite Rmult_minus_distr_l, Rinv_r in B by lra.
        assert (B2 : (y p ^ deg t - 1) / c <= y p ^ deg t * ln (y p)).
        { apply (Rmult_le_reg_l c); [exact Cp|]. replace (c * ((y p ^ deg t - 1) / c)) with (y p ^ deg t - 1) by (field; lra). lra. }
        apply (Rmult_le_compat_l (INR (a p t) * (D t * r t))) in B2.
        * unfold Rdiv in *. lra.
        * apply Rmult_le_pos; [apply pos_INR|]. apply Rmult_le_pos; auto.
  Qed.
  Lemma mm_gain : 0 <= sumL L (fun t => N t * ln (r' t / r t) - D t * (r' t - r t)).
  Proof.
    rewrite sumL_minus. rewrite (sumL_ext L (fun t => N t * ln (r' t / r t)) (fun t => sumL Ps (fun p => INR (a p t) * N t * ln (y p)))) by (intros; apply mm_log; assumption).
    assert (B : sumL L (fun t => D t * (r' t - r t)) <= sumL L (fun t => sumL Ps (fun p => share p t))) by (apply sumL_le; intros; apply mm_rate; assumption).
    rewrite (sumL_swap L Ps (fun t p => share p t)) in B. rewrite (sumL_swap L Ps (fun t p => INR (a p t) * N t * ln (y p))).
    assert (Q : 0 <= sumL Ps (fun p => sumL L (fun t => INR (a p t) * N t * ln (y p)) - sumL L (fun t => share p t))).
    { apply sumL_nonneg. intros p Ip. apply mm_param; exact Ip. }
    rewrite sumL_minus in Q. lra.
  Qed.
End MM.
