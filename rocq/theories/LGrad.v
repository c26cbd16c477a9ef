(** Derivative of the log-likelihood of a set along a one-parameter family of
    weights, in terms of the expected statistics at the start of the family. *)
From Coq Require Import String ZArith Bool Reals List Lia Lra Psatz.
From Verif Require Import Num Py SNum SPath LSum MSet MModels MLik MBW LFB LEM SBW LBW LBWSet LBWMC LLik LEMGen.
Import ListNotations.
Local Open Scope R_scope.

Notation dl f l := (derivable_pt_lim f 0 l).

Lemma dl_ext f g l l' : (forall z, f z = g z) -> l = l' -> dl f l -> dl g l'.
Proof. intros E <-. apply derivable_pt_lim_ext. exact E. Qed.
Lemma dl_sumL {A} (L : list A) (f : A -> R -> R) (l : A -> R) :
  (forall x, In x L -> dl (f x) (l x)) -> dl (fun t => sumL L (fun x => f x t)) (sumL L l).
Proof.
  induction L as [|x L IH]; intros H.
  - apply (dl_ext (fun _ => 0) _ 0); [reflexivity|reflexivity|apply derivable_pt_lim_const].
  - apply (dl_ext (fun t => f x t + sumL L (fun x => f x t)) _ (l x + sumL L l)); [reflexivity|reflexivity|].
    apply (derivable_pt_lim_plus (f x) (fun t => sumL L (fun x => f x t))); [apply H; left; reflexivity|]. apply IH. intros; apply H; right; assumption.
Qed.
Lemma dl_Sum n (f : nat -> R -> R) (l : nat -> R) : (forall i, (i < n)%nat -> dl (f i) (l i)) -> dl (fun t => Sum n (fun i => f i t)) (Sum n l).
Proof. intros H. apply dl_sumL. intros i I. apply H. apply in_seq in I. lia. Qed.
Lemma dl_mult f g l k : dl f l -> dl g k -> dl (fun t => f t * g t) (l * g 0 + f 0 * k).
Proof. intros A B. exact (derivable_pt_lim_mult f g 0 l k A B). Qed.
(** a product of two logarithmic derivatives *)
Lemma dl_mult_log f g r q : dl f (f 0 * r) -> dl g (g 0 * q) -> dl (fun t => f t * g t) (f 0 * g 0 * (r + q)).
Proof. intros A B. eapply dl_ext; [reflexivity| |exact (dl_mult f g _ _ A B)]. ring. Qed.
Lemma dl_const c : dl (fun _ => c) 0.
Proof. apply derivable_pt_lim_const. Qed.
Lemma dl_scal_r f l c : dl f l -> dl (fun t => f t * c) (l * c).
Proof. intros A. eapply dl_ext; [reflexivity| |exact (dl_mult f (fun _ => c) _ _ A (dl_const c))]. cbv beta; ring. Qed.
Lemma dl_ln f l : 0 < f 0 -> dl f l -> dl (fun t => ln (f t)) (l / f 0).
Proof.
  intros P D. eapply dl_ext; [reflexivity| |exact (derivable_pt_lim_comp f ln 0 l (/ f 0) D (derivable_pt_lim_ln (f 0) P))].
  unfold Rdiv; ring.
Qed.
Lemma dl_exp f l : dl f l -> dl (fun t => exp (f t)) (exp (f 0) * l).
Proof. intros D. exact (derivable_pt_lim_comp f exp 0 l (exp (f 0)) D (derivable_pt_lim_exp (f 0))). Qed.
(** going from one number to another *)
Lemma dl_blend x y : dl (fun t => (1 - t) * x + t * y) (y - x).
Proof.
  apply (dl_ext (fun t => x + t * (y - x)) _ (0 + 1 * (y - x))); [intros; ring|ring|].
  apply (derivable_pt_lim_plus (fun _ => x) (fun t => t * (y - x))); [apply derivable_pt_lim_const|]. apply dl_scal_r, derivable_pt_lim_id.
Qed.
Lemma dl_blend_log x y : (x = 0 -> y = 0) -> dl (fun t => (1 - t) * x + t * y) (((1 - 0) * x + 0 * y) * ((y - x) / x)).
Proof.
  intros Z. eapply dl_ext; [reflexivity| |apply dl_blend]. destruct (Req_dec x 0) as [E|E]; [rewrite (Z E), E; unfold Rdiv; ring|field; exact E].
Qed.

Section Grad.
  Variable n : nat.
  Notation weight := (nat -> nat -> R).

  Lemma tot_dl f (Q : list (R -> weight)) (rs : list weight) :
    Forall2 (fun q r => forall s s', (s < n)%nat -> (s' < n)%nat -> dl (fun t => q t s s') (q 0 s s' * r s s')) Q rs ->
    forall (a : R -> nat -> R) (da : nat -> R), (forall s, (s < n)%nat -> dl (fun t => a t s) (da s)) ->
    dl (fun t => tot n (a t) (map (fun q => q t) Q) f)
       (Sum n (fun s => da s * Bk n (map (fun q => q 0) Q) f s)
        + Sum n (fun s => Sum n (fun s' => wsum (xi n (a 0) (map (fun q => q 0) Q) f s s') (map (fun r => r s s') rs)))).
  Proof.
    induction 1 as [|q r Q rs Hq HQ IH]; intros a da Ha.
    - cbn [map]. apply (dl_ext (fun t => Sum n (fun s => a t s * f s)) _ (Sum n (fun s => da s * f s))).
      + reflexivity.
      + rewrite (Sum_zero_ext n (fun s => Sum n _)); [cbn [Bk]; ring|]. intros s Hs. apply Sum_zero_ext. reflexivity.
      + apply (dl_Sum n (fun s t => a t s * f s)). intros s Hs. apply dl_scal_r, Ha, Hs.
    - cbn [map]. specialize (IH (fun t => step n (a t) (q t)) (fun s' => Sum n (fun s => da s * q 0 s s' + a 0 s * (q 0 s s' * r s s')))).
      eapply dl_ext; [| |apply IH].
      + intros t. rewrite tot_step. reflexivity.
      + set (B := Bk n (map (fun q => q 0) Q) f). 
        assert (E1 : Sum n (fun s' => Sum n (fun s => da s * q 0 s s' + a 0 s * (q 0 s s' * r s s')) * B s') =
                     Sum n (fun s => da s * Bk n (q 0 :: map (fun q => q 0) Q) f s) + Sum n (fun s => Sum n (fun s' => a 0 s * q 0 s s' * B s' * r s s'))).
        { rewrite <- Sum_plus. rewrite (Sum_ext n _ (fun s' => Sum n (fun s => (da s * q 0 s s' + a 0 s * (q 0 s s' * r s s')) * B s'))) by (intros; symmetry; apply Sum_scal_r).
          rewrite Sum_swap. apply Sum_ext. intros s Hs. cbn [Bk]. fold B. rewrite <- Sum_scal_l, <- Sum_plus. apply Sum_ext. intros; ring. }
        rewrite E1, Rplus_assoc. f_equal. rewrite <- Sum_plus. apply Sum_ext. intros s Hs. rewrite <- Sum_plus. apply Sum_ext. intros s' Hs'.
        cbn [xi]. rewrite wsum_cons. reflexivity.
      + intros s' Hs'. unfold step. apply (dl_Sum n (fun s t => a t s * q t s s')). intros s Hs. apply (dl_mult (fun t => a t s) (fun t => q t s s')); auto.
  Qed.
End Grad.

Section SetGrad.
  Context {S O : Type} (n : nat) (set : list (S * Z)) (obs : S -> list O) (f : S -> nat -> R).
  Variables (a : R -> nat -> R) (A : R -> O -> nat -> nat -> R) (b : R -> O -> nat -> R).
  (** logarithmic derivatives *)
  Variables (ra : nat -> R) (rA : O -> nat -> nat -> R) (rb : O -> nat -> R).
  Notation W t := (ew obs (A t) (b t)).
  Notation P t := (Pof n (a t) (W t) f).
  Hypothesis Hf : forall x t, In (x, t) set -> okf n (f x).
  Hypothesis Ha : okf n (a 0).
  Hypothesis HA : forall x t o, In (x, t) set -> In o (obs x) -> okw n (A 0 o) /\ okf n (b 0 o).
  Hypothesis Da : forall s, (s < n)%nat -> dl (fun t => a t s) (a 0 s * ra s).
  Hypothesis DA : forall x t o s s', In (x, t) set -> In o (obs x) -> (s < n)%nat -> (s' < n)%nat -> dl (fun t => A t o s s') (A 0 o s s' * rA o s s').
  Hypothesis Db : forall x t o s, In (x, t) set -> In o (obs x) -> (s < n)%nat -> dl (fun t => b t o s) (b 0 o s * rb o s).
  Hypothesis Za : forall u s, (s < n)%nat -> a 0 s = 0 -> a u s = 0.
  Hypothesis Zw : forall u x t o s s', In (x, t) set -> In o (obs x) -> (s < n)%nat -> (s' < n)%nat -> b 0 o s * A 0 o s s' = 0 -> b u o s * A u o s s' = 0.

  Definition slope_ini : R := Sum n (fun s => IN n set (a 0) (W 0) f s * ra s).
  Definition slope_trans (s s' : nat) : R :=
    psum n set (a 0) (W 0) f (fun x t => wsum (xi n (a 0) (W 0 x) (f x) s s') (map (fun o => rA o s s') (obs x)) * fac n (a 0) (W 0) f x t).
  Definition slope_emit (s : nat) : R :=
    psum n set (a 0) (W 0) f (fun x t => wsum (gam n (a 0) (W 0 x) (f x) s) (map (fun o => rb o s) (obs x)) * fac n (a 0) (W 0) f x t).

  Lemma P0_nonneg x t : In (x, t) set -> 0 <= P 0 x.
  Proof. intros I. apply Sum_nonneg. intros s Hs. apply Rmult_le_pos; [auto|]. apply Bk_nonneg; eauto. apply (ew_okw n set obs (A 0) (b 0)) with (t := t); auto. Qed.

  Lemma P_dl x t : In (x, t) set ->
    dl (fun u => P u x) (Sum n (fun s => a 0 s * Bk n (W 0 x) (f x) s * ra s)
      + (Sum n (fun s => Sum n (fun s' => wsum (xi n (a 0) (W 0 x) (f x) s s') (map (fun o => rA o s s') (obs x))))
         + Sum n (fun s => wsum (gam n (a 0) (W 0 x) (f x) s) (map (fun o => rb o s) (obs x))))).
  Proof.
    intros I. set (Q := map (fun o u (s s' : nat) => b u o s * A u o s s') (obs x)).
    pose proof (tot_dl n (f x) Q (map (fun o s s' => rb o s + rA o s s') (obs x))) as T.
    assert (E : forall u, map (fun q => q u) Q = W u x) by (intros; unfold Q, ew; rewrite map_map; reflexivity).
    eapply dl_ext with (g := fun u => P u x). 3: apply T with (a := a) (da := fun s => a 0 s * ra s); [|exact Da].
    - intros u. cbv beta. rewrite E. reflexivity.
    - rewrite E. f_equal; [apply Sum_ext; intros; ring|]. rewrite <- Sum_plus. apply Sum_ext. intros s Hs. rewrite gam_xi by exact Hs. rewrite <- Sum_plus.
      apply Sum_ext. intros s' Hs'. rewrite map_map. rewrite <- wsum_plus by (rewrite map_length, xi_length, ew_length; reflexivity).
      f_equal. clear. induction (obs x) as [|o l IH]; [reflexivity|]. cbn. rewrite IH. f_equal. ring.
    - unfold Q. assert (H : forall o, In o (obs x) -> In o (obs x)) by auto. revert H. generalize (obs x) at 1 3 4.
      induction l as [|o l IH]; intros Hin; cbn [map]; constructor; [|apply IH; intros; apply Hin; right; assumption].
      intros s s' Hs Hs'. apply (dl_mult_log (fun u => b u o s) (fun u => A u o s s')); [apply (Db x t)|apply (DA x t)]; auto; apply Hin; left; reflexivity.
  Qed.

  Lemma P_zero x t u : In (x, t) set -> P 0 x = 0 -> P u x = 0.
  Proof.
    intros I Z. apply (tot_zero n (a 0) (a u) (W 0 x)); eauto.
    - apply (ew_okw n set obs (A 0) (b 0)) with (t := t); auto.
    - unfold ew. assert (H : forall o, In o (obs x) -> In o (obs x)) by auto. revert H. generalize (obs x) at 1 3 4.
      induction l as [|o l IH]; intros Hin; cbn; constructor.
      + intros s s' Hs Hs'. apply (Zw u x t o s s' I); auto. apply Hin; left; reflexivity.
      + apply IH. intros; apply Hin; right; assumption.
  Qed.

  Lemma set_dl : dl (fun u => set_ll (P u) set) (slope_ini + (Sum n (fun s => Sum n (fun s' => slope_trans s s')) + Sum n slope_emit)).
  Proof.
    eapply dl_ext; [reflexivity| |apply (dl_sumL set (fun st u => if Rlt_dec 0 (P u (fst st)) then IZR (snd st) * ln (P u (fst st)) else 0)
      (fun st => if Rlt_dec 0 (P 0 (fst st)) then
        (Sum n (fun s => a 0 s * Bk n (W 0 (fst st)) (f (fst st)) s * ra s)
      + (Sum n (fun s => Sum n (fun s' => wsum (xi n (a 0) (W 0 (fst st)) (f (fst st)) s s') (map (fun o => rA o s s') (obs (fst st)))))
         + Sum n (fun s => wsum (gam n (a 0) (W 0 (fst st)) (f (fst st)) s) (map (fun o => rb o s) (obs (fst st))))))
        * fac n (a 0) (W 0) f (fst st) (snd st) else 0))].
    - unfold slope_ini, slope_trans, slope_emit, IN. fold (psum n set (a 0) (W 0) f).
      rewrite (Sum_ext n (fun s => psum n set (a 0) (W 0) f (fun x t => a 0 s * Bk n (W 0 x) (f x) s * fac n (a 0) (W 0) f x t) * ra s)
                 (fun s => psum n set (a 0) (W 0) f (fun x t => a 0 s * Bk n (W 0 x) (f x) s * fac n (a 0) (W 0) f x t * ra s))) by (intros; symmetry; apply psum_scal_r).
      rewrite <- psum_Sum.
      rewrite (Sum_ext n (fun s => Sum n (fun s' => psum n set (a 0) (W 0) f (fun x t => wsum (xi n (a 0) (W 0 x) (f x) s s') (map (fun o => rA o s s') (obs x)) * fac n (a 0) (W 0) f x t)))
                 (fun s => psum n set (a 0) (W 0) f (fun x t => Sum n (fun s' => wsum (xi n (a 0) (W 0 x) (f x) s s') (map (fun o => rA o s s') (obs x)) * fac n (a 0) (W 0) f x t)))) by (intros; symmetry; apply psum_Sum).
      rewrite <- !psum_Sum, <- !psum_plus. unfold psum. apply sumL_ext. intros [x t] I. cbn [fst snd]. destruct (Rlt_dec 0 (P 0 x)); [|reflexivity].
      rewrite !Rmult_plus_distr_r, <- !Sum_scal_r. f_equal; [apply Sum_ext; intros; ring|]. f_equal. apply Sum_ext. intros s Hs. rewrite <- Sum_scal_r. reflexivity.
    - intros [x t] I. cbn [fst snd]. pose proof (P_dl x t I) as D. pose proof (P0_nonneg x t I) as N. destruct (Rlt_dec 0 (P 0 x)) as [L|L].
      + eapply dl_ext; [| |exact (dl_mult (fun _ => IZR t) (fun u => ln (P u x)) _ _ (dl_const (IZR t)) (dl_ln _ _ L D))].
        * intros u. cbn beta. destruct (Rlt_dec 0 (P u x)) as [Q|Q]; [reflexivity|]. unfold ln. destruct (Rlt_dec 0 (P u x)); [contradiction|ring].
        * unfold fac. field. lra.
      + eapply dl_ext; [|reflexivity|apply dl_const]. intros u. cbn beta. rewrite (P_zero x t u I) by lra. destruct (Rlt_dec 0 0); [lra|reflexivity].
  Qed.
End SetGrad.
