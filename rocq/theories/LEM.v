(** The inequality behind expectation-maximisation. *)
From Coq Require Import ZArith Bool Reals List Lia Lra Psatz.
From Verif Require Import Num Py SNum SPath LSum MSet MModels MLik MBW LFB.
Import ListNotations.
Local Open Scope R_scope.

Lemma ln_le_sub1 z : 0 < z -> ln z <= z - 1.
Proof.
  intros Hz. destruct (Rle_lt_dec (ln z) (z - 1)) as [|Hlt]; [assumption|exfalso].
  pose proof (exp_increasing _ _ Hlt) as He. rewrite exp_ln in He by exact Hz.
  destruct (Req_dec (z - 1) 0) as [E|E].
  - assert (z = 1) by lra. subst. rewrite ln_1 in Hlt. lra.
  - pose proof (exp_ineq1 (z - 1) E). lra.
Qed.

Lemma ln_ratio_lower x y : 0 < x -> 0 < y -> x * ln (y / x) <= y - x.
Proof.
  intros Hx Hy. assert (Hz : 0 < y / x) by (apply Rdiv_lt_0_compat; assumption).
  pose proof (ln_le_sub1 _ Hz) as Hl. apply (Rmult_le_compat_l x) in Hl; [|lra].
  replace (x * (y / x - 1)) with (y - x) in Hl by (field; lra). exact Hl.
Qed.

Lemma log_sum {A} (l : list A) (x y : A -> R) :
  (forall a, In a l -> 0 <= x a) -> (forall a, In a l -> 0 <= y a) ->
  (forall a, In a l -> 0 < x a -> 0 < y a) ->
  sumL l (fun a => x a * ln (y a / x a)) <= sumL l x * ln (sumL l y / sumL l x).
Proof.
  intros Hx Hy Hs. set (X := sumL l x). set (Y := sumL l y).
  assert (HX : 0 <= X) by (apply sumL_nonneg; exact Hx).
  destruct (Req_dec X 0) as [E|E].
  - rewrite E. rewrite Rmult_0_l. apply Req_le. apply sumL_zero_ext. intros a Ia.
    rewrite (sumL_eq0 l x Hx E a Ia). ring.
  - assert (HX' : 0 < X) by lra.
    destruct (sumL_pos_exists l x HX') as [a0 [I0 P0]].
    assert (HY : 0 < Y) by (apply (sumL_pos l y a0); auto).
    replace (X * ln (Y / X)) with (sumL l (fun a => x a * ln (Y / X))) by apply sumL_scal_r.
    apply Rminus_le. rewrite <- sumL_minus.
    apply Rle_trans with (sumL l (fun a => y a * (X / Y) - x a)).
    + apply sumL_le. intros a Ia. destruct (Req_dec (x a) 0) as [E0|E0].
      * rewrite E0. pose proof (Hy a Ia). pose proof (Rdiv_lt_0_compat _ _ HX' HY).
        pose proof (Rmult_le_pos _ _ H (Rlt_le _ _ H0)). lra.
      * assert (Px : 0 < x a) by (pose proof (Hx a Ia); lra). pose proof (Hs a Ia Px) as Py.
        pose proof (Rdiv_lt_0_compat _ _ HX' HY) as PXY.
        replace (x a * ln (y a / x a) - x a * ln (Y / X)) with (x a * ln (y a * (X / Y) / x a)).
        -- apply ln_ratio_lower; [exact Px|apply Rmult_lt_0_compat; assumption].
        -- replace (y a * (X / Y) / x a) with ((y a / x a) * (X / Y)) by (field; lra).
           rewrite ln_mult by (try assumption; apply Rdiv_lt_0_compat; assumption).
           replace (X / Y) with (/ (Y / X)) by (field; lra).
           rewrite ln_Rinv by (apply Rdiv_lt_0_compat; assumption). ring.
    + rewrite sumL_minus, sumL_scal_r. fold X Y. apply Req_le. field. lra.
Qed.

(** Gibbs' inequality for a re-estimated row. *)
Lemma gibbs m (N p : nat -> R) :
  (forall j, (j < m)%nat -> 0 <= N j) -> (forall j, (j < m)%nat -> 0 <= p j) ->
  (forall j, (j < m)%nat -> 0 < N j -> 0 < p j) -> Sum m p <= 1 -> 0 < Sum m N ->
  0 <= Sum m (fun j => N j * ln (N j / Sum m N / p j)).
Proof.
  intros HN Hp Hs H1 HD. set (D := Sum m N) in *.
  assert (L : Sum m (fun j => N j * ln (p j / N j)) <= Sum m N * ln (Sum m p / Sum m N)).
  { apply log_sum; intros a Ia; apply in_seq in Ia; [apply HN|apply Hp|apply Hs]; lia. }
  fold D in L.
  assert (P : 0 < Sum m p).
  { destruct (Sum_pos_exists _ _ HD) as [j [Hj Pj]]. apply (Sum_pos m p j); auto. }
  assert (E : Sum m (fun j => N j * ln (N j / D / p j)) = - Sum m (fun j => N j * ln (p j / N j)) - D * ln D).
  { rewrite <- Sum_opp. unfold D at 2. rewrite <- (Sum_scal_r m (ln D) N), <- Sum_minus.
    apply Sum_ext. intros j Hj. destruct (Req_dec (N j) 0) as [E0|E0]; [rewrite E0; ring|].
    assert (PN : 0 < N j) by (pose proof (HN j Hj); lra). pose proof (Hs j Hj PN) as Pp.
    replace (N j / D / p j) with (/ (p j / N j) * / D) by (field; lra).
    rewrite ln_mult by (apply Rinv_0_lt_compat; try assumption; apply Rdiv_lt_0_compat; assumption).
    rewrite !ln_Rinv by (try assumption; apply Rdiv_lt_0_compat; assumption). ring. }
  rewrite E. clear E. unfold Rdiv in L at 2. rewrite ln_mult in L by (try assumption; apply Rinv_0_lt_compat; assumption).
  rewrite ln_Rinv in L by assumption.
  assert (Hl : ln (Sum m p) <= 0). { pose proof (ln_le_sub1 _ P). lra. }
  assert (D * ln (Sum m p) <= 0). { rewrite <- (Rmult_0_r D). apply Rmult_le_compat_l; lra. }
  lra.
Qed.

(** The same inequality with a distance between the old row and the new one. *)
Lemma entry_gain x y : 0 < x -> 0 < y -> 2 * x - 2 * (sqrt x * sqrt y) <= x * ln (x / y).
Proof.
  intros Hx Hy. pose proof (sqrt_lt_R0 x Hx) as Sx. pose proof (sqrt_lt_R0 y Hy) as Sy.
  pose proof (sqrt_sqrt x (Rlt_le _ _ Hx)) as Qx. pose proof (sqrt_sqrt y (Rlt_le _ _ Hy)) as Qy.
  pose proof (ln_le_sub1 (sqrt y / sqrt x) (Rdiv_lt_0_compat _ _ Sy Sx)) as L.
  assert (E : ln (x / y) = - (2 * ln (sqrt y / sqrt x))).
  { rewrite <- Qx at 1. rewrite <- Qy at 1. unfold Rdiv. rewrite Rinv_mult, !ln_mult, !ln_Rinv by (try apply Rmult_lt_0_compat; try apply Rinv_0_lt_compat; assumption). ring. }
  rewrite E. replace (2 * x - 2 * (sqrt x * sqrt y)) with (x * - (2 * (sqrt y / sqrt x - 1))).
  - apply Rmult_le_compat_l; lra.
  - rewrite <- Qx at 1. replace (2 * x) with (2 * (sqrt x * sqrt x)) by (rewrite Qx; reflexivity). field. lra.
Qed.
Lemma hellinger_gain m (N p : nat -> R) :
  (forall j, (j < m)%nat -> 0 <= N j) -> (forall j, (j < m)%nat -> 0 <= p j) ->
  (forall j, (j < m)%nat -> 0 < N j -> 0 < p j) -> Sum m p <= 1 -> 0 < Sum m N ->
  Sum m N * Sum m (fun j => (sqrt (N j / Sum m N) - sqrt (p j)) ^ 2) <= Sum m (fun j => N j * ln (N j / Sum m N / p j)).
Proof.
  intros HN Hp Hs H1 HD. set (D := Sum m N) in *.
  apply Rle_trans with (Sum m (fun j => D * ((sqrt (N j / D) - sqrt (p j)) ^ 2 + (N j / D - p j)))).
  - rewrite Sum_scal_l, Sum_plus, Sum_minus, Sum_div_r. fold D. replace (D / D) with 1 by (field; lra).
    apply Rmult_le_compat_l; lra.
  - apply Sum_le. intros j Hj. pose proof (HN j Hj) as Nj. pose proof (Hp j Hj) as Pj.
    assert (Q : 0 <= N j / D) by (apply Rmult_le_pos; [exact Nj|apply Rlt_le, Rinv_0_lt_compat; exact HD]).
    pose proof (sqrt_sqrt _ Q) as S1. pose proof (sqrt_sqrt _ Pj) as S2.
    replace ((sqrt (N j / D) - sqrt (p j)) ^ 2 + (N j / D - p j)) with (2 * (N j / D) - 2 * (sqrt (N j / D) * sqrt (p j))) by nra.
    destruct (Req_dec (N j) 0) as [E|E].
    + rewrite E. unfold Rdiv. rewrite !Rmult_0_l, sqrt_0. lra.
    + assert (Pn : 0 < N j) by lra. pose proof (Hs j Hj Pn) as Pp.
      pose proof (entry_gain (N j / D) (p j) (Rdiv_lt_0_compat _ _ Pn HD) Pp) as G. apply (Rmult_le_compat_l D) in G; [|lra].
      replace (N j * ln (N j / D / p j)) with (D * (N j / D * ln (N j / D / p j))) by (field; lra). exact G.
Qed.

Section EM.
  Variable n : nat.
  Notation weight := (nat -> nat -> R).

  (** Where the old model has expected transitions, the new weights are positive. *)
  Fixpoint supp (a : nat -> R) (W W' : list weight) (f : nat -> R) : Prop :=
    match W, W' with
    | [], [] => True
    | w :: W1, w' :: W1' =>
      (forall s s', (s < n)%nat -> (s' < n)%nat -> 0 < a s * w s s' * Bk n W1 f s' -> 0 < w' s s')
      /\ supp (step n a w) W1 W1' f
    | _, _ => False
    end.

  Fixpoint Dk (W W' : list weight) (f : nat -> R) (s : nat) : R :=
    match W, W' with
    | w :: W1, w' :: W1' =>
      Sum n (fun s' => w s s' * Bk n W1 f s' * ln (w' s s' / w s s') + w s s' * Dk W1 W1' f s')
    | _, _ => 0
    end.

  Lemma em_local W : forall W' f a, Forall (okw n) W -> Forall (okw n) W' -> okf n f -> okf n a -> supp a W W' f ->
    forall s, (s < n)%nat -> 0 < a s ->
      (0 < Bk n W f s -> 0 < Bk n W' f s) /\
      Dk W W' f s <= Bk n W f s * ln (Bk n W' f s / Bk n W f s).
  Proof.
    induction W as [|w W IH]; intros [|w' W'] f a HW HW' Hf Ha S s Hs Pa; cbn [supp] in S; try contradiction.
    - cbn. split; [auto|]. destruct (Req_dec (f s) 0) as [->|E]; [lra|].
      replace (f s / f s) with 1 by (field; lra). rewrite ln_1. lra.
    - destruct S as [S1 S2]. inversion HW as [|? ? Hw HW1]; subst. inversion HW' as [|? ? Hw' HW1']; subst.
      assert (IH' : forall s', (s' < n)%nat -> 0 < w s s' ->
         (0 < Bk n W f s' -> 0 < Bk n W' f s') /\ Dk W W' f s' <= Bk n W f s' * ln (Bk n W' f s' / Bk n W f s')).
      { intros s' Hs' Pw. apply (IH W' f (step n a w)); auto using step_nonneg.
        apply (Sum_pos n (fun ss => a ss * w ss s') s); auto.
        - intros j Hj. apply Rmult_le_pos; auto.
        - apply Rmult_lt_0_compat; assumption. }
      assert (T : forall s', (s' < n)%nat -> 0 < w s s' * Bk n W f s' -> 0 < w s s' /\ 0 < Bk n W f s' /\ 0 < w' s s' /\ 0 < Bk n W' f s').
      { intros s' Hs' Pp. pose proof (Hw s s' Hs Hs') as Nw. pose proof (Bk_nonneg n W f s' HW1 Hf Hs') as NB.
        assert (Pw : 0 < w s s') by (destruct (Req_dec (w s s') 0) as [E|E]; [rewrite E, Rmult_0_l in Pp|]; lra).
        assert (PB : 0 < Bk n W f s') by (destruct (Req_dec (Bk n W f s') 0) as [E|E]; [rewrite E, Rmult_0_r in Pp|]; lra).
        repeat split; auto.
        - apply (S1 s s' Hs Hs'). repeat apply Rmult_lt_0_compat; auto.
        - apply (IH' s' Hs' Pw). exact PB. }
      split.
      + cbn [Bk]. intros P. destruct (Sum_pos_exists _ _ P) as [s' [Hs' Pp]].
        destruct (T s' Hs' Pp) as (_ & _ & Pw' & PB').
        apply (Sum_pos n (fun s'0 => w' s s'0 * Bk n W' f s'0) s'); auto.
        * intros j Hj. apply Rmult_le_pos; [apply Hw'|apply Bk_nonneg]; auto.
        * apply Rmult_lt_0_compat; assumption.
      + cbn [Bk Dk].
        apply Rle_trans with (Sum n (fun s' => (w s s' * Bk n W f s') * ln ((w' s s' * Bk n W' f s') / (w s s' * Bk n W f s')))).
        * apply Sum_le. intros s' Hs'. pose proof (Hw s s' Hs Hs') as Nw. pose proof (Bk_nonneg n W f s' HW1 Hf Hs') as NB.
          destruct (Req_dec (w s s') 0) as [E|E]; [rewrite E; lra|]. assert (Pw : 0 < w s s') by lra.
          destruct (IH' s' Hs' Pw) as [_ I].
          destruct (Req_dec (Bk n W f s') 0) as [EB|EB].
          -- rewrite EB in *. rewrite Rmult_0_r in *. rewrite !Rmult_0_l in *. 
             pose proof (Rmult_le_compat_l (w s s') _ _ Nw I). lra.
          -- assert (PB : 0 < Bk n W f s') by lra.
             destruct (T s' Hs' (Rmult_lt_0_compat _ _ Pw PB)) as (_ & _ & Pw' & PB').
             replace ((w' s s' * Bk n W' f s') / (w s s' * Bk n W f s')) with ((w' s s' / w s s') * (Bk n W' f s' / Bk n W f s')) by (field; lra).
             rewrite ln_mult by (apply Rdiv_lt_0_compat; assumption).
             pose proof (Rmult_le_compat_l (w s s') _ _ Nw I). lra.
        * apply log_sum.
          -- intros s' Is. apply in_seq in Is. apply Rmult_le_pos; [apply Hw|apply Bk_nonneg]; auto; lia.
          -- intros s' Is. apply in_seq in Is. apply Rmult_le_pos; [apply Hw'|apply Bk_nonneg]; auto; lia.
          -- intros s' Is Pp. apply in_seq in Is. destruct (T s') as (_ & _ & P1 & P2); [lia|exact Pp|].
             apply Rmult_lt_0_compat; assumption.
  Qed.

  (** log-ratios of the weights at (s,s'), position by position *)
  Definition lrs (W W' : list weight) (s s' : nat) : list R := zipwith (fun w w' => ln (w' s s' / w s s')) W W'.

  Lemma Dk_xi W : forall W' f a, length W = length W' ->
    Sum n (fun s => a s * Dk W W' f s) = Sum n (fun s => Sum n (fun s' => wsum (xi n a W f s s') (lrs W W' s s'))).
  Proof.
    induction W as [|w W IH]; intros [|w' W'] f a L; try discriminate.
    - cbn. rewrite (Sum_zero_ext n (fun s => a s * 0)) by (intros; ring). symmetry. apply Sum_zero_ext. intros. apply Sum_zero_ext. reflexivity.
    - cbn [Dk xi lrs zipwith].
      rewrite (Sum_ext n (fun s => Sum n (fun s' => wsum _ _))
         (fun s => Sum n (fun s' => a s * w s s' * Bk n W f s' * ln (w' s s' / w s s')) +
                   Sum n (fun s' => wsum (xi n (step n a w) W f s s') (lrs W W' s s')))).
      2:{ intros s Hs. rewrite <- Sum_plus. apply Sum_ext. intros s' Hs'. apply wsum_cons. }
      rewrite Sum_plus, <- IH by (cbn in L; lia).
      rewrite (Sum_ext n (fun s => a s * Sum n _)
         (fun s => Sum n (fun s' => a s * w s s' * Bk n W f s' * ln (w' s s' / w s s')) + Sum n (fun s' => a s * w s s' * Dk W W' f s'))).
      2:{ intros s Hs. rewrite <- Sum_plus, <- Sum_scal_l. apply Sum_ext. intros; ring. }
      rewrite Sum_plus. f_equal. rewrite Sum_swap. apply Sum_ext. intros s' Hs'. unfold step. rewrite <- Sum_scal_r. reflexivity.
  Qed.

  (** One sequence. *)
  Lemma em_sequence a a' W W' f : Forall (okw n) W -> Forall (okw n) W' -> okf n f -> okf n a -> okf n a' ->
    supp a W W' f -> (forall s, (s < n)%nat -> 0 < a s * Bk n W f s -> 0 < a' s) -> 0 < tot n a W f ->
    0 < tot n a' W' f /\
    Sum n (fun s => a s * Bk n W f s * ln (a' s / a s)) +
    Sum n (fun s => Sum n (fun s' => wsum (xi n a W f s s') (lrs W W' s s')))
    <= tot n a W f * (ln (tot n a' W' f) - ln (tot n a W f)).
  Proof.
    intros HW HW' Hf Ha Ha' S Si P.
    assert (L : length W = length W').
    { clear - S. revert a W' S. induction W; intros b [|w' W'] S; cbn in *; try tauto. destruct S as [_ S]. f_equal. eauto. }
    assert (T : forall s, (s < n)%nat -> 0 < a s * Bk n W f s -> 0 < a s /\ 0 < Bk n W f s /\ 0 < a' s /\ 0 < Bk n W' f s).
    { intros s Hs Pp. pose proof (Ha s Hs) as Na. pose proof (Bk_nonneg n W f s HW Hf Hs) as NB.
      assert (Pa : 0 < a s) by (destruct (Req_dec (a s) 0) as [E|E]; [rewrite E, Rmult_0_l in Pp|]; lra).
      assert (PB : 0 < Bk n W f s) by (destruct (Req_dec (Bk n W f s) 0) as [E|E]; [rewrite E, Rmult_0_r in Pp|]; lra).
      repeat split; auto. apply (em_local W W' f a HW HW' Hf Ha S s Hs Pa). exact PB. }
    assert (P' : 0 < tot n a' W' f).
    { destruct (Sum_pos_exists _ _ P) as [s [Hs Pp]]. destruct (T s Hs Pp) as (_ & _ & Pa' & PB').
      apply (Sum_pos n (fun s0 => a' s0 * Bk n W' f s0) s); auto.
      - intros j Hj. apply Rmult_le_pos; [apply Ha'|apply Bk_nonneg]; auto.
      - apply Rmult_lt_0_compat; assumption. }
    split; [exact P'|].
    rewrite <- (Dk_xi W W' f a L), <- Sum_plus.
    apply Rle_trans with (Sum n (fun s => (a s * Bk n W f s) * ln ((a' s * Bk n W' f s) / (a s * Bk n W f s)))).
    - apply Sum_le. intros s Hs. pose proof (Ha s Hs) as Na. pose proof (Bk_nonneg n W f s HW Hf Hs) as NB.
      destruct (Req_dec (a s) 0) as [E|E]; [rewrite E; lra|]. assert (Pa : 0 < a s) by lra.
      destruct (em_local W W' f a HW HW' Hf Ha S s Hs Pa) as [_ I].
      destruct (Req_dec (Bk n W f s) 0) as [EB|EB].
      + rewrite EB in *. rewrite Rmult_0_r, !Rmult_0_l in *. pose proof (Rmult_le_compat_l (a s) _ _ Na I). lra.
      + assert (PB : 0 < Bk n W f s) by lra.
        destruct (T s Hs (Rmult_lt_0_compat _ _ Pa PB)) as (_ & _ & Pa' & PB').
        replace ((a' s * Bk n W' f s) / (a s * Bk n W f s)) with ((a' s / a s) * (Bk n W' f s / Bk n W f s)) by (field; lra).
        rewrite ln_mult by (apply Rdiv_lt_0_compat; assumption).
        pose proof (Rmult_le_compat_l (a s) _ _ Na I). lra.
    - replace (tot n a W f * (ln (tot n a' W' f) - ln (tot n a W f))) with (tot n a W f * ln (tot n a' W' f / tot n a W f)).
      + apply log_sum.
        * intros s Is. apply in_seq in Is. apply Rmult_le_pos; [apply Ha|apply Bk_nonneg]; auto; lia.
        * intros s Is. apply in_seq in Is. apply Rmult_le_pos; [apply Ha'|apply Bk_nonneg]; auto; lia.
        * intros s Is Pp. apply in_seq in Is. destruct (T s) as (_ & _ & P1 & P2); [lia|exact Pp|].
          apply Rmult_lt_0_compat; assumption.
      + unfold Rdiv. rewrite ln_mult by (try assumption; apply Rinv_0_lt_compat; assumption).
        rewrite ln_Rinv by assumption. ring.
  Qed.

  (** Positions with a positive value keep one. *)
  Lemma gam_supp W : forall W' f a a', Forall (okw n) W -> Forall (okw n) W' -> okf n f -> okf n a -> okf n a' -> supp a W W' f ->
    (forall s, (s < n)%nat -> 0 < a s * Bk n W f s -> 0 < a' s) ->
    forall k s, (s < n)%nat -> 0 < nth k (gam n a W f s) 0 -> 0 < nth k (gam n a' W' f s) 0.
  Proof.
    induction W as [|w W IH]; intros [|w' W'] f a a' HW HW' Hf Ha Ha' S Si k s Hs P; try contradiction.
    - destruct k; cbn in P; lra.
    - assert (T : forall s, (s < n)%nat -> 0 < a s * Bk n (w :: W) f s -> 0 < a s /\ 0 < a' s /\ 0 < Bk n (w' :: W') f s).
      { intros i Hi Pp. pose proof (Ha i Hi) as Na. pose proof (Bk_nonneg n (w :: W) f i HW Hf Hi) as NB.
        assert (Pa : 0 < a i) by (destruct (Req_dec (a i) 0) as [E|E]; [rewrite E, Rmult_0_l in Pp|]; lra).
        assert (PB : 0 < Bk n (w :: W) f i) by (destruct (Req_dec (Bk n (w :: W) f i) 0) as [E|E]; [rewrite E, Rmult_0_r in Pp|]; lra).
        split; [exact Pa|]. split; [apply Si; assumption|]. apply (em_local (w :: W) (w' :: W') f a HW HW' Hf Ha S i Hi Pa). exact PB. }
      destruct k as [|k].
      + cbn [gam nth] in P |- *. destruct (T s Hs P) as (_ & P1 & P2). apply Rmult_lt_0_compat; assumption.
      + cbn [gam nth] in P |- *. cbn [supp] in S. destruct S as [S1 S2]. inversion HW as [|? ? Hw HW1]; subst. inversion HW' as [|? ? Hw' HW1']; subst.
        apply (IH W' f (step n a w) (step n a' w')); auto using step_nonneg.
        intros i Hi Pp. pose proof (Bk_nonneg n W f i HW1 Hf Hi) as NB.
        assert (PB : 0 < Bk n W f i) by (destruct (Req_dec (Bk n W f i) 0) as [E|E]; [rewrite E, Rmult_0_r in Pp|]; lra).
        assert (Pst : 0 < step n a w i) by (pose proof (step_nonneg n a w Ha Hw i Hi); destruct (Req_dec (step n a w i) 0) as [E|E]; [rewrite E, Rmult_0_l in Pp|]; lra).
        apply Sum_pos_exists in Pst. destruct Pst as [j [Hj Pj]]. pose proof (Ha j Hj) as Na. pose proof (Hw j i Hj Hi) as Nw.
        assert (Paj : 0 < a j) by (destruct (Req_dec (a j) 0) as [E|E]; [rewrite E, Rmult_0_l in Pj|]; lra).
        assert (Pwj : 0 < w j i) by (destruct (Req_dec (w j i) 0) as [E|E]; [rewrite E, Rmult_0_r in Pj|]; lra).
        apply (Sum_pos n (fun x => a' x * w' x i) j); auto.
        * intros x Hx. apply Rmult_le_pos; auto.
        * apply Rmult_lt_0_compat; [|apply (S1 j i Hj Hi); repeat apply Rmult_lt_0_compat; assumption].
          apply Si; [exact Hj|]. apply Rmult_lt_0_compat; [exact Paj|]. cbn [Bk].
          apply (Sum_pos n (fun x => w j x * Bk n W f x) i); auto.
          -- intros x Hx. apply Rmult_le_pos; [apply Hw|apply Bk_nonneg]; auto.
          -- apply Rmult_lt_0_compat; assumption.
  Qed.

  (** support criterion in terms of [xi] *)
  Lemma supp_xi a W W' f : length W = length W' ->
    (forall k s s', (k < length W)%nat -> (s < n)%nat -> (s' < n)%nat -> 0 < nth k (xi n a W f s s') 0 -> 0 < nth k W' (fun _ _ => 0) s s') ->
    supp a W W' f.
  Proof.
    revert a W'. induction W as [|w W IH]; intros a [|w' W'] L S; try discriminate; cbn; [trivial|].
    split.
    - intros s s' Hs Hs' P. apply (S O s s'); cbn; auto; lia.
    - apply IH; [cbn in L; lia|]. intros k s s' Hk Hs Hs' P. apply (S (Datatypes.S k) s s'); cbn; auto; lia.
  Qed.

  (** impossible sequences stay impossible when the support does not grow *)
  Lemma tot_zero a a' W W' f : Forall (okw n) W -> okf n f -> okf n a ->
    (forall s, (s < n)%nat -> a s = 0 -> a' s = 0) ->
    Forall2 (fun w w' => forall s s', (s < n)%nat -> (s' < n)%nat -> w s s' = 0 -> w' s s' = 0) W W' ->
    tot n a W f = 0 -> tot n a' W' f = 0.
  Proof.
    intros HW Hf Ha Za F. revert a a' Ha Za. induction F as [|w w' W W' Z F IH]; intros a a' Ha Za E.
    - apply Sum_zero_ext. intros s Hs. unfold tot in E.
      assert (X : a s * Bk n [] f s = 0).
      { apply (Sum_eq0 n (fun s => a s * Bk n [] f s)); auto. intros j Hj. apply Rmult_le_pos; [apply Ha|apply Hf]; auto. }
      cbn in *. apply Rmult_integral in X. destruct X as [X|X]; [rewrite (Za s Hs X)|rewrite X]; ring.
    - inversion HW as [|? ? Hw HW1]; subst. rewrite tot_step in *. apply (IH HW1 (step n a w)); auto using step_nonneg.
      intros s Hs Es. apply Sum_zero_ext. intros ss Hss.
      assert (X : a ss * w ss s = 0).
      { apply (Sum_eq0 n (fun ss => a ss * w ss s)); auto. intros j Hj. apply Rmult_le_pos; [apply Ha|apply Hw]; auto. }
      apply Rmult_integral in X. destruct X as [X|X]; [rewrite (Za ss Hss X)|rewrite (Z ss s Hss Hs X)]; ring.
  Qed.
End EM.

(** Where the expected transitions vanish. *)
Lemma xi_nth_zero n W f s s' : forall a k, nth k W (fun _ _ => 0) s s' = 0 -> nth k (xi n a W f s s') 0 = 0.
Proof.
  induction W as [|w W IH]; intros a [|k] E; cbn in *; auto. rewrite E. ring.
Qed.
Lemma xi_nth_pos n a W f s s' k : Forall (okw n) W -> okf n f -> okf n a -> (s < n)%nat -> (s' < n)%nat ->
  0 < nth k (xi n a W f s s') 0 -> 0 < nth k W (fun _ _ => 0) s s'.
Proof.
  intros FW Hf Ha Hs Hs' P. destruct (Nat.lt_ge_cases k (length W)) as [Hk|Hk].
  - destruct (Req_dec (nth k W (fun _ _ => 0) s s') 0) as [E|E].
    + rewrite (xi_nth_zero n W f s s' a k E) in P. lra.
    + rewrite Forall_forall in FW. specialize (FW _ (nth_In W (fun _ _ => 0) Hk) s s' Hs Hs'). lra.
  - rewrite nth_overflow in P by (rewrite xi_length; exact Hk). lra.
Qed.
