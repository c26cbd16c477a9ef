(** Expectation-maximisation on a weighted set of traces, for any family of
    weights. *)
From Coq Require Import String ZArith Bool Reals List Lia Lra Psatz.
From Verif Require Import Num Py SNum SPath LSum MSet MModels MLik MBW LFB LEM SBW LBW.
Import ListNotations.
Local Open Scope R_scope.

Section Gen.
  Context {S : Type} (n : nat) (set : list (S * Z)).
  Variables (a : nat -> R) (W : S -> list (nat -> nat -> R)) (f : S -> nat -> R).

  Definition Pof (x : S) : R := tot n a (W x) (f x).

  (** sum over the possible traces *)
  Definition psum (F : S -> Z -> R) : R :=
    sumL set (fun st => if Rlt_dec 0 (Pof (fst st)) then F (fst st) (snd st) else 0).

  Definition fac (x : S) (t : Z) : R := IZR t / Pof x.
  (** expected statistics: transitions, visits, weighted by position *)
  Definition XI (c : S -> list R) (s s' : nat) : R := psum (fun x t => wsum (xi n a (W x) (f x) s s') (c x) * fac x t).
  Definition GA (c : S -> list R) (s : nat) : R := psum (fun x t => wsum (gam n a (W x) (f x) s) (c x) * fac x t).
  Definition IN (s : nat) : R := psum (fun x t => a s * Bk n (W x) (f x) s * fac x t).
  Definition ones1 (x : S) : list R := repeat 1 (length (W x)).

  Lemma psum_ext F G : (forall x t, In (x, t) set -> 0 < Pof x -> F x t = G x t) -> psum F = psum G.
  Proof. intros E. apply sumL_ext. intros [x t] I. cbn. destruct (Rlt_dec 0 (Pof x)); auto. Qed.
  Lemma psum_nonneg F : (forall x t, In (x, t) set -> 0 < Pof x -> 0 <= F x t) -> 0 <= psum F.
  Proof. intros E. apply sumL_nonneg. intros [x t] I. cbn. destruct (Rlt_dec 0 (Pof x)); [auto|lra]. Qed.
  Lemma psum_le F G : (forall x t, In (x, t) set -> 0 < Pof x -> F x t <= G x t) -> psum F <= psum G.
  Proof. intros E. apply sumL_le. intros [x t] I. cbn. destruct (Rlt_dec 0 (Pof x)); [auto|lra]. Qed.
  Lemma psum_plus F G : psum (fun x t => F x t + G x t) = psum F + psum G.
  Proof.
    unfold psum. rewrite <- sumL_plus. apply sumL_ext. intros [x t] I. cbn. destruct (Rlt_dec 0 (Pof x)); [auto|lra].
  Qed.
  Lemma psum_minus F G : psum (fun x t => F x t - G x t) = psum F - psum G.
  Proof.
    unfold psum. rewrite <- sumL_minus. apply sumL_ext. intros [x t] I. cbn. destruct (Rlt_dec 0 (Pof x)); [auto|lra].
  Qed.
  Lemma psum_scal_r F k : psum (fun x t => F x t * k) = psum F * k.
  Proof.
    unfold psum. rewrite <- sumL_scal_r. apply sumL_ext. intros [x t] I. cbn. destruct (Rlt_dec 0 (Pof x)); [auto|lra].
  Qed.
  Lemma psum_Sum m F : psum (fun x t => Sum m (fun j => F x t j)) = Sum m (fun j => psum (fun x t => F x t j)).
  Proof.
    unfold psum, Sum. rewrite sumL_swap. apply sumL_ext. intros [x t] I. cbn. destruct (Rlt_dec 0 (Pof x)); [auto|].
    symmetry. apply sumL_zero.
  Qed.
  Lemma psum_eq0 F : (forall x t, In (x, t) set -> 0 < Pof x -> 0 <= F x t) -> psum F = 0 ->
    forall x t, In (x, t) set -> 0 < Pof x -> F x t = 0.
  Proof.
    intros N E x t I P.
    pose proof (sumL_eq0 set (fun st => if Rlt_dec 0 (Pof (fst st)) then F (fst st) (snd st) else 0)) as H.
    cbn in H. specialize (H ltac:(intros [y u] J; cbn; destruct (Rlt_dec 0 (Pof y)); [auto|lra]) E (x, t) I).
    cbn in H. destruct (Rlt_dec 0 (Pof x)); [auto|lra].
  Qed.
  Lemma psum_pos_term F x t : (forall x t, In (x, t) set -> 0 < Pof x -> 0 <= F x t) -> In (x, t) set -> 0 < Pof x ->
    0 < F x t -> 0 < psum F.
  Proof.
    intros N I P Pf. destruct (Req_dec (psum F) 0) as [E|E].
    - rewrite (psum_eq0 F N E x t I P) in Pf. lra.
    - pose proof (psum_nonneg F N). lra.
  Qed.

  Hypothesis HT : pos_times set.
  Hypothesis HW : forall x t, In (x, t) set -> Forall (okw n) (W x).
  Hypothesis Hf : forall x t, In (x, t) set -> okf n (f x).
  Hypothesis Ha : okf n a.

  Lemma fac_pos x t : In (x, t) set -> 0 < Pof x -> 0 < fac x t.
  Proof. intros I P. apply Rdiv_lt_0_compat; [|exact P]. apply IZR_lt. exact (HT (x, t) I). Qed.
  Lemma XI_term_nonneg c s s' x t : (forall x y, In y (c x) -> 0 <= y) -> (s < n)%nat -> (s' < n)%nat -> In (x, t) set -> 0 < Pof x ->
    0 <= wsum (xi n a (W x) (f x) s s') (c x) * fac x t.
  Proof.
    intros Hc Hs Hs' I P. apply Rmult_le_pos; [|apply Rlt_le, fac_pos; auto].
    apply wsum_nonneg; [|apply Hc]. intros y Iy. apply (xi_nonneg n a (W x) (f x) s s'); eauto.
  Qed.
  Lemma XI_nonneg c s s' : (forall x y, In y (c x) -> 0 <= y) -> (s < n)%nat -> (s' < n)%nat -> 0 <= XI c s s'.
  Proof. intros. apply psum_nonneg. intros. apply XI_term_nonneg; auto. Qed.
  Lemma GA_XI c s : (s < n)%nat -> GA c s = Sum n (fun s' => XI c s s').
  Proof.
    intros Hs. unfold XI. rewrite <- psum_Sum. apply psum_ext. intros x t I P. rewrite gam_xi by exact Hs.
    rewrite Sum_scal_r. reflexivity.
  Qed.
  Lemma ones1_nonneg x y : In y (ones1 x) -> 0 <= y.
  Proof. intros I. apply repeat_spec in I. lra. Qed.

  (** a positive expected transition shows up in the statistics *)
  Lemma XI_pos c s s' x t k : (forall x y, In y (c x) -> 0 <= y) -> (s < n)%nat -> (s' < n)%nat -> In (x, t) set -> 0 < Pof x ->
    (k < length (W x))%nat -> 0 < nth k (xi n a (W x) (f x) s s') 0 -> 0 < nth k (c x) 0 -> 0 < XI c s s'.
  Proof.
    intros Hc Hs Hs' I P Hk Px Pc. apply (psum_pos_term (fun x t => wsum (xi n a (W x) (f x) s s') (c x) * fac x t) x t); auto.
    - intros. apply XI_term_nonneg; auto.
    - apply Rmult_lt_0_compat; [|apply fac_pos; auto].
      assert (G : forall (l c : list R) k, (forall y, In y l -> 0 <= y) -> (forall y, In y c -> 0 <= y) -> (k < length l)%nat -> 0 < nth k l 0 -> 0 < nth k c 0 -> 0 < wsum l c).
      { induction l as [|u l IH]; intros d j Hl Hd Hj P1 P2; [cbn in Hj; lia|]. destruct d as [|v d]; [destruct j; cbn in P2; lra|].
        rewrite wsum_cons. destruct j as [|j].
        - cbn in P1, P2. assert (0 <= wsum l d) by (apply wsum_nonneg; intros; [apply Hl|apply Hd]; right; assumption).
          pose proof (Rmult_lt_0_compat _ _ P1 P2). lra.
        - assert (0 < wsum l d) by (apply (IH d j); cbn in *; auto; lia).
          assert (0 <= u * v) by (apply Rmult_le_pos; [apply Hl|apply Hd]; left; reflexivity). lra. }
      apply (G _ _ k); auto; [intros y Iy; apply (xi_nonneg n a (W x) (f x) s s'); eauto | intros y Iy; apply (Hc x); exact Iy | rewrite xi_length; exact Hk].
  Qed.
  Lemma XI_ones_pos s s' x t k : (s < n)%nat -> (s' < n)%nat -> In (x, t) set -> 0 < Pof x ->
    (k < length (W x))%nat -> 0 < nth k (xi n a (W x) (f x) s s') 0 -> 0 < XI ones1 s s'.
  Proof.
    intros. apply (XI_pos ones1 s s' x t k); auto; [exact ones1_nonneg|].
    unfold ones1. rewrite nth_indep with (d' := 1) by (rewrite repeat_length; assumption). rewrite nth_repeat. lra.
  Qed.

  (** The EM inequality on the whole set. *)
  Variables (a' : nat -> R) (W' : S -> list (nat -> nat -> R)).
  Hypothesis HW' : forall x t, In (x, t) set -> Forall (okw n) (W' x).
  Hypothesis Ha' : okf n a'.
  Hypothesis HL : forall x t, In (x, t) set -> length (W x) = length (W' x).
  Hypothesis HS : forall x t, In (x, t) set -> 0 < Pof x -> supp n a (W x) (W' x) (f x).
  Hypothesis HI : forall s, (s < n)%nat -> 0 < IN s -> 0 < a' s.

  Definition Pof' (x : S) : R := tot n a' (W' x) (f x).

  Lemma IN_nonneg s : (s < n)%nat -> 0 <= IN s.
  Proof.
    intros Hs. apply psum_nonneg. intros x t I P. apply Rmult_le_pos; [|apply Rlt_le, fac_pos; auto].
    apply Rmult_le_pos; [auto|]. apply Bk_nonneg; eauto.
  Qed.
  Lemma init_supp x t s : In (x, t) set -> 0 < Pof x -> (s < n)%nat -> 0 < a s * Bk n (W x) (f x) s -> 0 < a' s.
  Proof.
    intros I P Hs Pp. apply HI; auto.
    apply (psum_pos_term (fun x t => a s * Bk n (W x) (f x) s * fac x t) x t); auto.
    - intros y u J Q. apply Rmult_le_pos; [|apply Rlt_le, fac_pos; auto]. apply Rmult_le_pos; [auto|]. apply Bk_nonneg; eauto.
    - apply Rmult_lt_0_compat; [exact Pp|apply fac_pos; auto].
  Qed.
  Lemma Pof'_pos x t : In (x, t) set -> 0 < Pof x -> 0 < Pof' x.
  Proof.
    intros I P. apply (em_sequence n a a' (W x) (W' x) (f x)); eauto. intros. eapply init_supp; eauto.
  Qed.

  Lemma em_set : 
    Sum n (fun s => IN s * ln (a' s / a s)) +
    Sum n (fun s => Sum n (fun s' => psum (fun x t => wsum (xi n a (W x) (f x) s s') (lrs (W x) (W' x) s s') * fac x t)))
    <= psum (fun x t => IZR t * (ln (Pof' x) - ln (Pof x))).
  Proof.
    apply Rle_trans with (psum (fun x t =>
       (Sum n (fun s => a s * Bk n (W x) (f x) s * ln (a' s / a s)) +
        Sum n (fun s => Sum n (fun s' => wsum (xi n a (W x) (f x) s s') (lrs (W x) (W' x) s s')))) * fac x t)).
    - apply Req_le. symmetry.
      rewrite (psum_ext _ (fun x t => Sum n (fun s => a s * Bk n (W x) (f x) s * fac x t * ln (a' s / a s)) +
         Sum n (fun s => Sum n (fun s' => wsum (xi n a (W x) (f x) s s') (lrs (W x) (W' x) s s') * fac x t)))).
      2:{ intros x t I P. rewrite Rmult_plus_distr_r. f_equal.
          - rewrite <- Sum_scal_r. apply Sum_ext. intros; ring.
          - rewrite <- Sum_scal_r. apply Sum_ext. intros. rewrite <- Sum_scal_r. reflexivity. }
      rewrite psum_plus, !psum_Sum. f_equal.
      + apply Sum_ext. intros s Hs. unfold IN. rewrite psum_scal_r. reflexivity.
      + apply Sum_ext. intros s Hs. rewrite psum_Sum. reflexivity.
    - apply psum_le. intros x t I P.
      destruct (em_sequence n a a' (W x) (W' x) (f x)) as [_ E]; eauto.
      { intros. eapply init_supp; eauto. }
      pose proof (fac_pos x t I P) as F. apply (Rmult_le_compat_r (fac x t)) in E; [|lra].
      apply Rle_trans with (1 := E). unfold fac, Pof'. fold (Pof x). apply Req_le. field. lra.
  Qed.

  (** Comparing set log-likelihoods. *)
  Lemma set_ll_psum : set_ll Pof set = psum (fun x t => IZR t * ln (Pof x)).
  Proof. reflexivity. Qed.
  Lemma set_ll_improve : (forall x t, In (x, t) set -> Pof x = 0 -> Pof' x = 0) ->
    set_ll Pof' set = set_ll Pof set + psum (fun x t => IZR t * (ln (Pof' x) - ln (Pof x))).
  Proof.
    intros Z. rewrite set_ll_psum, <- psum_plus. unfold set_ll, psum. apply sumL_ext. intros [x t] I. cbn.
    destruct (Rlt_dec 0 (Pof x)) as [P|P].
    - destruct (Rlt_dec 0 (Pof' x)) as [P'|P']; [ring|]. exfalso. apply P'. eapply Pof'_pos; eauto.
    - assert (E : Pof x = 0).
      { apply Rle_antisym; [lra|]. apply Sum_nonneg. intros s Hs. apply Rmult_le_pos; [auto|]. apply Bk_nonneg; eauto. }
      rewrite (Z x t I E). destruct (Rlt_dec 0 0); lra.
  Qed.
End Gen.

(** *)
Lemma wsum_zero l c : (forall k, nth k l 0 = 0) -> wsum l c = 0.
Proof.
  revert c. induction l as [|x l IH]; intros c Hz; [reflexivity|]. destruct c as [|y c]; [reflexivity|].
  rewrite wsum_cons, IH by (intros k; exact (Hz (S k))). pose proof (Hz O) as E. cbn in E. rewrite E. ring.
Qed.
Lemma psum_zero {T} n set a (W : T -> list (nat -> nat -> R)) f F :
  (forall x t, In (x, t) set -> 0 < Pof n a W f x -> F x t = 0) -> psum n set a W f F = 0.
Proof.
  intros E. rewrite (psum_ext n set a W f F (fun _ _ => 0 * 0)).
  - rewrite psum_scal_r. ring.
  - intros. rewrite E by assumption. ring.
Qed.
Lemma XI_zero {T} n set a (W : T -> list (nat -> nat -> R)) f c s s' :
  (forall x t k, In (x, t) set -> 0 < Pof n a W f x -> nth k (xi n a (W x) (f x) s s') 0 = 0) -> XI n set a W f c s s' = 0.
Proof.
  intros E. apply psum_zero. intros x t I P. rewrite wsum_zero; [ring|]. intros k. eapply E; eauto.
Qed.
