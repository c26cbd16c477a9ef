(** Lemmas for C148: limits of sequences of models and of what a round of
    learning computes from them. *)
From Coq Require Import String ZArith Bool Reals List Lia Lra ConstructiveEpsilon.
From Verif Require Import Num Py SNum SPath LSum MSet MModels MLik MBW LFB LEM SBW LBW LBWSet SLik SExp SGain LGain LEMGen SLimit.
Import ListNotations.
Local Open Scope R_scope.

(** ** Sequences *)
Lemma cv_const c : Un_cv (fun _ => c) c.
Proof. intros e He. exists O. intros k _. unfold R_dist. rewrite Rminus_diag_eq, Rabs_R0 by reflexivity. exact He. Qed.
Lemma cv_ext u v l : (forall k, u k = v k) -> Un_cv u l -> Un_cv v l.
Proof. intros E H e He. destruct (H e He) as [N HN]. exists N. intros k Hk. rewrite <- E. auto. Qed.
Lemma cv_lim u l l' : l = l' -> Un_cv u l -> Un_cv u l'.
Proof. intros ->. auto. Qed.
Lemma cv_Sum n (u : nat -> nat -> R) l : (forall i, (i < n)%nat -> Un_cv (fun k => u k i) (l i)) -> Un_cv (fun k => Sum n (u k)) (Sum n l).
Proof.
  induction n as [|n IH]; intros H; [apply (cv_ext (fun _ => 0)); [reflexivity|apply cv_const]|].
  rewrite Sum_S. apply (cv_ext (fun k => Sum n (u k) + u k n)); [intros; rewrite Sum_S; reflexivity|].
  apply CV_plus; [apply IH; intros; apply H; lia|apply H; lia].
Qed.
Lemma cv_sumL {A} (l : list A) (u : nat -> A -> R) v : (forall x, In x l -> Un_cv (fun k => u k x) (v x)) -> Un_cv (fun k => sumL l (u k)) (sumL l v).
Proof.
  induction l as [|x l IH]; intros H; [apply (cv_ext (fun _ => 0)); [reflexivity|apply cv_const]|].
  apply (CV_plus (fun k => u k x) (fun k => sumL l (u k))); [apply H; left; reflexivity|apply IH; intros; apply H; right; assumption].
Qed.
Lemma cv_inv u l : l <> 0 -> Un_cv u l -> Un_cv (fun k => / u k) (/ l).
Proof.
  intros Hl H. apply (continuity_seq (fun x => / x) u l); [|exact H].
  apply (continuity_pt_inv (fun x => x) l); [apply derivable_continuous_pt, derivable_pt_id|exact Hl].
Qed.
Lemma cv_div u v a b : b <> 0 -> Un_cv u a -> Un_cv v b -> Un_cv (fun k => u k / v k) (a / b).
Proof. intros Hb Hu Hv. apply CV_mult; [exact Hu|apply cv_inv; assumption]. Qed.
Lemma cv_sqrt u l : 0 <= l -> Un_cv u l -> Un_cv (fun k => sqrt (u k)) (sqrt l).
Proof. intros Hl H. apply (continuity_seq sqrt u l); [|exact H]. apply continuity_pt_sqrt. exact Hl. Qed.
Lemma cv_ln u l : 0 < l -> Un_cv u l -> Un_cv (fun k => ln (u k)) (ln l).
Proof. intros Hl H. apply (continuity_seq ln u l); [|exact H]. apply derivable_continuous_pt. exists (/ l). apply derivable_pt_lim_ln. exact Hl. Qed.
Lemma cv_exp u l : Un_cv u l -> Un_cv (fun k => exp (u k)) (exp l).
Proof. intros H. apply (continuity_seq exp u l); [|exact H]. apply derivable_continuous_pt, derivable_pt_exp. Qed.
Lemma cv_compare (u v : nat -> R) a b : (forall k, u k <= v k) -> Un_cv u a -> Un_cv v b -> a <= b.
Proof. intros H U V. eapply Rle_cv_lim; eassumption. Qed.
Lemma cv_nonneg u l : (forall k, 0 <= u k) -> Un_cv u l -> 0 <= l.
Proof. intros H U. apply (cv_compare (fun _ => 0) u); [exact H|apply cv_const|exact U]. Qed.
Lemma cv_le u l c : (forall k, u k <= c) -> Un_cv u l -> l <= c.
Proof. intros H U. apply (cv_compare u (fun _ => c)); [exact H|exact U|apply cv_const]. Qed.
Lemma cv_ge u l c : (forall k, c <= u k) -> Un_cv u l -> c <= l.
Proof. intros H U. apply (cv_compare (fun _ => c) u); [exact H|apply cv_const|exact U]. Qed.
Lemma cv_squeeze u v : (forall k, 0 <= u k <= v k) -> Un_cv v 0 -> Un_cv u 0.
Proof.
  intros H V e He. destruct (V e He) as [N HN]. exists N. intros k Hk. specialize (HN k Hk). specialize (H k). unfold R_dist in *.
  rewrite Rminus_0_r in *. rewrite Rabs_pos_eq in * by lra. lra.
Qed.

Lemma grows_ge f k : grows f -> (k <= f k)%nat.
Proof. intros G. induction k as [|k IH]; [lia|]. specialize (G k). lia. Qed.
Lemma grows_mono f i j : grows f -> (i < j)%nat -> (f i < f j)%nat.
Proof. intros G H. induction H as [|j H IH]; [apply G|]. specialize (G j). lia. Qed.
Lemma cv_sub u l f : grows f -> Un_cv u l -> Un_cv (fun k => u (f k)) l.
Proof. intros G H e He. destruct (H e He) as [N HN]. exists N. intros k Hk. apply HN. pose proof (grows_ge f k G). lia. Qed.
Lemma cv_S u l : Un_cv u l -> Un_cv (fun k => u (S k)) l.
Proof. apply (cv_sub u l S). intros k. lia. Qed.

(** A growing sequence with a converging subsequence converges. *)
Lemma up_le u i j : (forall k, u k <= u (S k)) -> (i <= j)%nat -> u i <= u j.
Proof. intros U H. induction H as [|j H IH]; [lra|]. specialize (U j). lra. Qed.
Lemma up_cv u l f : (forall k, u k <= u (S k)) -> grows f -> Un_cv (fun k => u (f k)) l -> Un_cv u l.
Proof.
  intros U G H e He. destruct (H e He) as [N HN]. exists (f N). intros k Hk.
  pose proof (HN N (Nat.le_refl N)) as A. pose proof (HN (Nat.max N k) (Nat.le_max_l N k)) as B.
  pose proof (up_le u _ _ U Hk) as C. assert (D : u k <= u (f (Nat.max N k))).
  { apply up_le; [exact U|]. pose proof (grows_ge f (Nat.max N k) G). lia. }
  unfold R_dist in *. apply Rabs_def2 in A, B. apply Rabs_def1; lra.
Qed.
Lemma up_step u l f : (forall k, u k <= u (S k)) -> grows f -> Un_cv (fun k => u (f k)) l -> Un_cv (fun k => u (S (f k)) - u (f k)) 0.
Proof.
  intros U G H. pose proof (up_cv u l f U G H) as C.
  apply (cv_lim _ (l - l)); [lra|]. apply CV_minus; [|exact H]. apply (cv_sub (fun k => u (S k)) l f G). apply cv_S. exact C.
Qed.

(** ** Forward-backward quantities *)
Section FB.
  Context {O : Type} (n : nat).
  Variables (w : nat -> O -> nat -> nat -> R) (ws : O -> nat -> nat -> R) (f : nat -> nat -> R) (fs : nat -> R).
  Hypothesis Hf : forall s, (s < n)%nat -> Un_cv (fun k => f k s) (fs s).
  Definition wcv (l : list O) := forall o s s', In o l -> (s < n)%nat -> (s' < n)%nat -> Un_cv (fun k => w k o s s') (ws o s s').

  Lemma Bk_cv l : wcv l -> forall s, (s < n)%nat -> Un_cv (fun k => Bk n (map (w k) l) (f k) s) (Bk n (map ws l) fs s).
  Proof.
    induction l as [|o l IH]; intros Hw s Hs; cbn [map Bk]; [auto|].
    apply (cv_Sum n (fun k s' => w k o s s' * Bk n (map (w k) l) (f k) s')). intros s' Hs'.
    apply CV_mult; [apply Hw; auto; left; reflexivity|apply IH; auto; intros o' t t' I; apply Hw; right; exact I].
  Qed.
  Definition acv (a : nat -> nat -> R) (x : nat -> R) := forall s, (s < n)%nat -> Un_cv (fun k => a k s) (x s).
  Lemma tot_cv a x l : wcv l -> acv a x -> Un_cv (fun k => tot n (a k) (map (w k) l) (f k)) (tot n x (map ws l) fs).
  Proof.
    intros Hw Ha. apply (cv_Sum n (fun k s => a k s * Bk n (map (w k) l) (f k) s)). intros s Hs.
    apply CV_mult; [auto|apply Bk_cv; auto].
  Qed.
  Lemma step_cv a x o l : wcv (o :: l) -> acv a x -> acv (fun k => step n (a k) (w k o)) (step n x (ws o)).
  Proof.
    intros Hw Ha s Hs. apply (cv_Sum n (fun k ss => a k ss * w k o ss s)). intros ss Hss. apply CV_mult; [auto|apply Hw; auto; left; reflexivity].
  Qed.
  Lemma wcv_tl o l : wcv (o :: l) -> wcv l.
  Proof. intros Hw o' s s' I. apply Hw. right; exact I. Qed.
  Lemma xi_cv l : wcv l -> forall a x s s' c, acv a x -> (s < n)%nat -> (s' < n)%nat ->
    Un_cv (fun k => wsum (xi n (a k) (map (w k) l) (f k) s s') c) (wsum (xi n x (map ws l) fs s s') c).
  Proof.
    induction l as [|o l IH]; intros Hw a x s s' c Ha Hs Hs'; cbn [map xi]; [apply cv_const|].
    destruct c as [|y c]; [exact (cv_const 0)|]. rewrite wsum_cons.
    eapply cv_ext; [intros k; rewrite wsum_cons; reflexivity|]. apply CV_plus.
    - apply CV_mult; [|apply cv_const]. apply CV_mult; [|apply Bk_cv; auto; apply (wcv_tl o); exact Hw].
      apply CV_mult; [auto|apply Hw; auto; left; reflexivity].
    - apply (IH (wcv_tl o l Hw) (fun k => step n (a k) (w k o))); auto. apply (step_cv a x o l); assumption.
  Qed.
  Lemma gam_cv l : wcv l -> forall a x s c, acv a x -> (s < n)%nat ->
    Un_cv (fun k => wsum (gam n (a k) (map (w k) l) (f k) s) c) (wsum (gam n x (map ws l) fs s) c).
  Proof.
    induction l as [|o l IH]; intros Hw a x s c Ha Hs; cbn [map gam]; [apply cv_const|].
    destruct c as [|y c]; [exact (cv_const 0)|]. rewrite wsum_cons.
    eapply cv_ext; [intros k; rewrite wsum_cons; reflexivity|]. apply CV_plus.
    - apply CV_mult; [|apply cv_const]. apply CV_mult; [auto|]. apply (Bk_cv (o :: l)); auto.
    - apply (IH (wcv_tl o l Hw) (fun k => step n (a k) (w k o))); auto. apply (step_cv a x o l); assumption.
  Qed.
End FB.

(** ** Statistics of a weighted set *)
Section Set1.
  Context {S : Type} (set : list (S * Z)) (P : nat -> S -> R) (Ps : S -> R) (L0 : R).
  Hypothesis HT : pos_times set.
  Hypothesis HP : forall x t, In (x, t) set -> Un_cv (fun k => P k x) (Ps x).
  Hypothesis HN : forall k x t, In (x, t) set -> 0 <= P k x.
  Hypothesis HS : forall k x t, In (x, t) set -> (0 < P 0%nat x <-> 0 < P k x).
  Hypothesis HL : forall k, L0 <= set_ll (P k) set.

  Lemma sumL_one {A} (l : list A) (F M : A -> R) x : (forall y, In y l -> F y <= M y /\ 0 <= M y) -> In x l -> sumL l F <= F x + sumL l M.
  Proof.
    induction l as [|z l IH]; intros H I; [destruct I|]. change (F z + sumL l F <= F x + (M z + sumL l M)).
    assert (sumL l F <= sumL l M) by (apply sumL_le; intros y Iy; apply H; right; exact Iy). pose proof (H z (or_introl eq_refl)) as [Fz Mz].
    destruct I as [-> |I]; [lra|]. assert (sumL l F <= F x + sumL l M) by (apply IH; [intros; apply H; right|]; assumption). lra.
  Qed.
  Lemma upper : exists M : S * Z -> R, forall st, In st set -> 0 <= M st /\
    forall k, (if Rlt_dec 0 (P k (fst st)) then IZR (snd st) * ln (P k (fst st)) else 0) <= M st.
  Proof.
    clear HL HS. induction set as [|[x t] l IH]; [exists (fun _ => 0); intros st []|].
    destruct IH as [M HM]; [intros st I; apply HT; right; exact I|intros y u I; apply (HP y u); right; exact I|intros k y u I; apply (HN k y u); right; exact I|].
    destruct (maj_by_pos (fun k => P k x)) as [b [Hb B]]; [exists (Ps x); apply (HP x t); left; reflexivity|].
    exists (fun st => Rmax (Rabs (M st)) (IZR t * Rabs (ln b))).
    intros st I. specialize (HT (x, t) (or_introl eq_refl)) as Ht. cbn [snd] in Ht. apply IZR_lt in Ht.
    assert (Q : 0 <= IZR t * Rabs (ln b)) by (apply Rmult_le_pos; [lra|apply Rabs_pos]).
    pose proof (Rmax_l (Rabs (M st)) (IZR t * Rabs (ln b))) as X1. pose proof (Rmax_r (Rabs (M st)) (IZR t * Rabs (ln b))) as X2.
    pose proof (Rabs_pos (M st)). split; [lra|]. intros k.
    destruct I as [<- |I].
    - cbn [fst snd]. destruct (Rlt_dec 0 (P k x)) as [p|]; [|lra]. eapply Rle_trans; [|exact X2]. apply Rmult_le_compat_l; [lra|].
      apply Rle_trans with (ln b); [|apply RRle_abs]. specialize (B k).
      assert (Pb : P k x <= b) by (eapply Rle_trans; [apply RRle_abs|exact B]).
      destruct Pb as [Lt| ->]; [left; apply ln_increasing; assumption|lra].
    - destruct (HM st I) as [M0 Mk]. specialize (Mk k). pose proof (RRle_abs (M st)). lra.
  Qed.
  (** What stays possible along the sequence is possible at its limit. *)
  Lemma limit_possible x t : In (x, t) set -> (0 < P 0%nat x <-> 0 < Ps x).
  Proof.
    intros I. split; intros Q.
    - destruct upper as [M HM]. set (C := L0 - sumL set M).
      assert (B : forall k, exp (- Rabs C) <= P k x).
      { intros k. pose proof (proj1 (HS k x t I) Q) as Pk.
        pose proof (sumL_one set (fun st => if Rlt_dec 0 (P k (fst st)) then IZR (snd st) * ln (P k (fst st)) else 0) M (x, t)) as U.
        cbn [fst snd] in U. destruct (Rlt_dec 0 (P k x)) as [_|]; [|contradiction].
        specialize (U ltac:(intros y Iy; split; [apply HM; exact Iy|apply HM; exact Iy]) I). specialize (HL k). unfold set_ll in HL.
        assert (T1 : 1 <= IZR t). { specialize (HT (x, t) I). cbn in HT. apply IZR_le. lia. }
        assert (G : C <= IZR t * ln (P k x)) by (unfold C; lra).
        assert (G' : - Rabs C <= ln (P k x)).
        { destruct (Rle_dec 0 (ln (P k x))) as [Y|Y]; [pose proof (Rabs_pos C); lra|].
          assert (C < 0) by nra. rewrite Rabs_left by assumption. nra. }
        rewrite <- (exp_ln (P k x)) by exact Pk. destruct G' as [Lt|Eq]; [left; apply exp_increasing; exact Lt|right; f_equal; exact Eq]. }
      eapply Rlt_le_trans; [apply (exp_pos (- Rabs C))|]. apply (cv_ge (fun k => P k x)); [exact B|apply (HP x t); exact I].
    - destruct (Rlt_dec 0 (P 0%nat x)) as [|Z]; [assumption|exfalso].
      assert (Z' : forall k, 0 = P k x). { intros k. pose proof (HN k x t I). destruct (Req_dec (P k x) 0); [congruence|]. exfalso. apply Z. apply (HS k x t I). lra. }
      pose proof (UL_sequence _ _ _ (HP x t I) (cv_ext _ _ 0 Z' (cv_const 0))). lra.
  Qed.
  Lemma psumlike_cv (F : nat -> S -> Z -> R) (Fs : S -> Z -> R) :
    (forall x t, In (x, t) set -> 0 < Ps x -> Un_cv (fun k => F k x t) (Fs x t)) ->
    Un_cv (fun k => sumL set (fun st => if Rlt_dec 0 (P k (fst st)) then F k (fst st) (snd st) else 0))
          (sumL set (fun st => if Rlt_dec 0 (Ps (fst st)) then Fs (fst st) (snd st) else 0)).
  Proof.
    intros H. apply (cv_sumL set (fun k st => if Rlt_dec 0 (P k (fst st)) then F k (fst st) (snd st) else 0)). intros [x t] I. cbn [fst snd].
    pose proof (limit_possible x t I) as Q. destruct (Rlt_dec 0 (Ps x)) as [p|p].
    - eapply cv_ext; [|apply (H x t I p)]. intros k. cbv beta. destruct (Rlt_dec 0 (P k x)) as [|Z]; [reflexivity|]. exfalso. apply Z. apply (HS k x t I). apply Q. exact p.
    - eapply cv_ext; [|apply cv_const]. intros k. cbv beta. destruct (Rlt_dec 0 (P k x)) as [Z|]; [|reflexivity]. exfalso. apply p. apply Q. apply (HS k x t I). exact Z.
  Qed.
  Lemma set_ll_cv : Un_cv (fun k => set_ll (P k) set) (set_ll Ps set).
  Proof.
    apply (psumlike_cv (fun k x t => IZR t * ln (P k x)) (fun x t => IZR t * ln (Ps x))). intros x t I p. apply CV_mult; [apply cv_const|]. apply cv_ln; [exact p|apply (HP x t I)].
  Qed.
End Set1.

Section Set2.
  Context {S O : Type} (n : nat) (set : list (S * Z)) (obs : S -> list O).
  Variables (a : nat -> nat -> R) (as_ : nat -> R) (w : nat -> O -> nat -> nat -> R) (ws : O -> nat -> nat -> R) (f : nat -> S -> nat -> R) (fs : S -> nat -> R) (L0 : R).
  Notation W k := (fun x => map (w k) (obs x)).
  Notation Wl := (fun x => map ws (obs x)).
  Notation P k := (Pof n (a k) (W k) (f k)).
  Notation Pl := (Pof n as_ Wl fs).
  Hypothesis HT : pos_times set.
  Hypothesis Ha : acv n a as_.
  Hypothesis Hw : forall x t, In (x, t) set -> wcv n w ws (obs x).
  Hypothesis Hf : forall x t s, In (x, t) set -> (s < n)%nat -> Un_cv (fun k => f k x s) (fs x s).
  Lemma Pof_cv x t : In (x, t) set -> Un_cv (fun k => P k x) (Pl x).
  Proof. intros I. apply (tot_cv n w ws (fun k => f k x) (fs x)); [intros; apply (Hf x t); assumption|apply (Hw x t I)|exact Ha]. Qed.
  Hypothesis HN : forall k x t, In (x, t) set -> 0 <= P k x.
  Hypothesis HS : forall k x t, In (x, t) set -> (0 < P 0%nat x <-> 0 < P k x).
  Hypothesis HL : forall k, L0 <= set_ll (P k) set.
  Lemma fac_cv x t : In (x, t) set -> 0 < Pl x -> Un_cv (fun k => fac n (a k) (W k) (f k) x t) (fac n as_ Wl fs x t).
  Proof. intros I p. apply (cv_div (fun _ => IZR t) (fun k => P k x)); [lra|apply cv_const|apply (Pof_cv x t I)]. Qed.
  Lemma XI_cv c s s' : (s < n)%nat -> (s' < n)%nat -> Un_cv (fun k => XI n set (a k) (W k) (f k) c s s') (XI n set as_ Wl fs c s s').
  Proof.
    intros Hs Hs'. apply (psumlike_cv set (fun k x => P k x) (fun x => Pl x) L0 HT Pof_cv HN HS HL (fun k x t => wsum (xi n (a k) (map (w k) (obs x)) (f k x) s s') (c x) * fac n (a k) (W k) (f k) x t)
      (fun x t => wsum (xi n as_ (map ws (obs x)) (fs x) s s') (c x) * fac n as_ Wl fs x t)).
    intros x t I p. apply CV_mult; [|apply fac_cv; assumption]. apply (xi_cv n w ws (fun k => f k x) (fs x)); auto; [intros; apply (Hf x t); assumption|apply (Hw x t I)].
  Qed.
  Lemma GA_cv c s : (s < n)%nat -> Un_cv (fun k => GA n set (a k) (W k) (f k) c s) (GA n set as_ Wl fs c s).
  Proof.
    intros Hs. apply (psumlike_cv set (fun k x => P k x) (fun x => Pl x) L0 HT Pof_cv HN HS HL (fun k x t => wsum (gam n (a k) (map (w k) (obs x)) (f k x) s) (c x) * fac n (a k) (W k) (f k) x t)
      (fun x t => wsum (gam n as_ (map ws (obs x)) (fs x) s) (c x) * fac n as_ Wl fs x t)).
    intros x t I p. apply CV_mult; [|apply fac_cv; assumption]. apply (gam_cv n w ws (fun k => f k x) (fs x)); auto; [intros; apply (Hf x t); assumption|apply (Hw x t I)].
  Qed.
  Lemma IN_cv s : (s < n)%nat -> Un_cv (fun k => IN n set (a k) (W k) (f k) s) (IN n set as_ Wl fs s).
  Proof.
    intros Hs. apply (psumlike_cv set (fun k x => P k x) (fun x => Pl x) L0 HT Pof_cv HN HS HL (fun k x t => a k s * Bk n (map (w k) (obs x)) (f k x) s * fac n (a k) (W k) (f k) x t)
      (fun x t => as_ s * Bk n (map ws (obs x)) (fs x) s * fac n as_ Wl fs x t)).
    intros x t I p. apply CV_mult; [|apply fac_cv; assumption]. apply CV_mult; [auto|]. apply (Bk_cv n w ws (fun k => f k x) (fs x)); auto; [intros; apply (Hf x t); assumption|apply (Hw x t I)].
  Qed.
  Lemma ll_cv : Un_cv (fun k => set_ll (P k) set) (set_ll Pl set).
  Proof. apply (set_ll_cv set (fun k x => P k x) (fun x => Pl x) L0 HT Pof_cv HN HS HL). Qed.
  Lemma possible x t : In (x, t) set -> (0 < P 0%nat x <-> 0 < Pl x).
  Proof. apply (limit_possible set (fun k x => P k x) (fun x => Pl x) L0 HT Pof_cv HN HS HL). Qed.
End Set2.

(** ** One row: if its moves, weighted by its uses, vanish, its limit does not move *)
Lemma moved_cv n (p q : nat -> nat -> R) x y : (forall j, (j < n)%nat -> 0 <= x j) -> (forall j, (j < n)%nat -> 0 <= y j) ->
  (forall j, (j < n)%nat -> Un_cv (fun k => p k j) (x j)) -> (forall j, (j < n)%nat -> Un_cv (fun k => q k j) (y j)) ->
  Un_cv (fun k => moved n (p k) (q k)) (moved n x y).
Proof.
  intros X Y Hp Hq. apply (cv_Sum n (fun k j => (sqrt (q k j) - sqrt (p k j)) ^ 2)). intros j Hj.
  assert (C : Un_cv (fun k => sqrt (q k j) - sqrt (p k j)) (sqrt (y j) - sqrt (x j))) by (apply CV_minus; apply cv_sqrt; auto).
  eapply cv_ext; [|eapply cv_lim; [|apply (CV_mult _ _ _ _ C C)]]; [intros k|]; cbv beta; ring.
Qed.
Lemma cv_eventually u v l K : (forall k, (K <= k)%nat -> u k = v k) -> Un_cv u l -> Un_cv v l.
Proof. intros E H e He. destruct (H e He) as [N HN]. exists (Nat.max N K). intros k Hk. rewrite <- E by lia. apply HN. lia. Qed.
Lemma cv_neq0 u l : l <> 0 -> Un_cv u l -> exists K, forall k, (K <= k)%nat -> u k <> 0.
Proof.
  intros Z H. destruct (H (Rabs l)) as [K HK]; [apply Rabs_pos_lt; exact Z|]. exists K. intros k Hk E. specialize (HK k Hk).
  unfold R_dist in HK. rewrite E in HK. replace (0 - l) with (- l) in HK by ring. rewrite Rabs_Ropp in HK. lra.
Qed.
Lemma est_cv (D : nat -> R) (N p : nat -> nat -> R) Dl Nl pl j : Dl <> 0 -> Un_cv D Dl -> Un_cv (fun k => N k j) (Nl j) ->
  Un_cv (fun k => est (D k) (N k) (p k) j) (est Dl Nl pl j).
Proof.
  intros Z HD HN. destruct (cv_neq0 D Dl Z HD) as [K HK]. apply (cv_eventually (fun k => N k j / D k) _ _ K).
  - intros k Hk. unfold est. destruct (Req_EM_T (D k) 0) as [E|_]; [destruct (HK k Hk E)|reflexivity].
  - unfold est. destruct (Req_EM_T Dl 0); [contradiction|]. apply (cv_div (fun k => N k j) D); assumption.
Qed.
Lemma row_limit n (D : nat -> R) (N p : nat -> nat -> R) (g : nat -> R) Dl Nl pl :
  (forall k, 0 <= D k) -> (forall k j, (j < n)%nat -> 0 <= N k j) -> (forall k j, (j < n)%nat -> 0 <= p k j) ->
  Un_cv D Dl -> (forall j, (j < n)%nat -> Un_cv (fun k => N k j) (Nl j)) -> (forall j, (j < n)%nat -> Un_cv (fun k => p k j) (pl j)) ->
  (forall k, D k * moved n (p k) (est (D k) (N k) (p k)) <= g k) -> Un_cv g 0 ->
  forall j, (j < n)%nat -> est Dl Nl pl j = pl j.
Proof.
  intros D0 N0 p0 HD HN Hp HG Hg. destruct (Req_dec Dl 0) as [Z|Z]; [intros j _; unfold est; destruct (Req_EM_T Dl 0); [reflexivity|contradiction]|].
  assert (DP : 0 < Dl) by (pose proof (cv_nonneg D Dl D0 HD); lra).
  assert (X : forall j, (j < n)%nat -> 0 <= pl j) by (intros j Hj; apply (cv_nonneg (fun k => p k j)); [intros k; apply p0; exact Hj|apply Hp; exact Hj]).
  assert (NX : forall j, (j < n)%nat -> 0 <= Nl j) by (intros j Hj; apply (cv_nonneg (fun k => N k j)); [intros k; apply N0; exact Hj|apply HN; exact Hj]).
  assert (Y : forall j, (j < n)%nat -> 0 <= est Dl Nl pl j).
  { intros j Hj. unfold est. destruct (Req_EM_T Dl 0); [contradiction|]. apply Rmult_le_pos; [auto|]. left. apply Rinv_0_lt_compat. exact DP. }
  apply (moved_zero n pl (est Dl Nl pl)); [exact X|exact Y|].
  assert (C : Un_cv (fun k => D k * moved n (p k) (est (D k) (N k) (p k))) (Dl * moved n pl (est Dl Nl pl))).
  { apply CV_mult; [exact HD|]. apply (moved_cv n p (fun k => est (D k) (N k) (p k))); auto. intros j Hj. apply est_cv; auto. }
  pose proof (cv_compare _ _ _ _ HG C Hg). pose proof (moved_nonneg n pl (est Dl Nl pl)). nra.
Qed.

Lemma row_limit_next n (D : nat -> R) (N p q : nat -> nat -> R) (g : nat -> R) Dl Nl pl :
  (forall k, 0 <= D k) -> (forall k j, (j < n)%nat -> 0 <= N k j) -> (forall k j, (j < n)%nat -> 0 <= p k j) ->
  Un_cv D Dl -> (forall j, (j < n)%nat -> Un_cv (fun k => N k j) (Nl j)) -> (forall j, (j < n)%nat -> Un_cv (fun k => p k j) (pl j)) ->
  (forall k j, (j < n)%nat -> q k j = est (D k) (N k) (p k) j) -> (forall k, D k * moved n (p k) (q k) <= g k) -> Un_cv g 0 ->
  forall j, (j < n)%nat -> est Dl Nl pl j = pl j.
Proof.
  intros D0 N0 p0 HD HN Hp Hq HG. apply (row_limit n D N p g); auto. intros k.
  replace (moved n (p k) (est (D k) (N k) (p k))) with (moved n (p k) (q k)); [apply HG|]. apply Sum_ext. intros j Hj. do 3 f_equal. apply Hq. exact Hj.
Qed.

(** ** Every bounded family of sequences has a converging subsequence *)
Lemma tiny e : 0 < e -> exists N, forall k, (N <= k)%nat -> / INR (S k) < e.
Proof.
  intros He. destruct (archimed_cor1 e He) as [N [HN HP]]. exists N. intros k Hk. eapply Rle_lt_trans; [|exact HN].
  apply Rinv_le_contravar; [apply lt_0_INR; exact HP|apply le_INR; lia].
Qed.
Lemma extract (u : nat -> R) l : (forall e N, 0 < e -> exists k, (N <= k)%nat /\ Rabs (u k - l) < e) ->
  exists f, grows f /\ Un_cv (fun k => u (f k)) l.
Proof.
  intros H.
  assert (pick : forall j N, {k | (N <= k)%nat /\ Rabs (u k - l) < / INR (S j)}).
  { intros j N. apply (constructive_indefinite_ground_description_nat (fun k => (N <= k)%nat /\ Rabs (u k - l) < / INR (S j))).
    - intros k. destruct (le_dec N k); [|right; tauto]. destruct (Rlt_dec (Rabs (u k - l)) (/ INR (S j))); [left|right]; tauto.
    - apply H. apply Rinv_0_lt_compat. apply lt_0_INR. lia. }
  set (f := fix f j := match j with O => proj1_sig (pick O O) | S j' => proj1_sig (pick (S j') (S (f j'))) end).
  assert (F0 : f O = proj1_sig (pick O O)) by reflexivity. assert (FS : forall j, f (S j) = proj1_sig (pick (S j) (S (f j)))) by reflexivity.
  clearbody f.
  assert (G : grows f). { intros j. rewrite FS. pose proof (proj2_sig (pick (S j) (S (f j)))) as [Hk _]. lia. }
  exists f. split; [exact G|]. intros e He. destruct (tiny e He) as [N HN]. exists N. intros k Hk. unfold R_dist.
  apply Rlt_trans with (/ INR (S k)); [|apply HN; lia].
  destruct k as [|k]; [rewrite F0|rewrite FS]; apply (proj2_sig (pick _ _)).
Qed.
Lemma subseq1 (u : nat -> R) B : (forall k, 0 <= u k <= B) -> exists f l, grows f /\ Un_cv (fun k => u (f k)) l.
Proof.
  intros H. destruct (Bolzano_Weierstrass u (fun c => 0 <= c <= B) (compact_P3 0 B) H) as [l Hl].
  destruct (extract u l) as [f [G C]]; [|exists f, l; split; assumption].
  intros e N He. destruct (Hl (disc l (mkposreal e He)) N) as [k [Hk V]].
  - exists (mkposreal e He). intros y Y. exact Y.
  - exists k. split; [exact Hk|exact V].
Qed.
Lemma subseq n (u : nat -> nat -> R) B : (forall i k, (i < n)%nat -> 0 <= u i k <= B) ->
  exists f l, grows f /\ forall i, (i < n)%nat -> Un_cv (fun k => u i (f k)) (l i).
Proof.
  induction n as [|n IH]; intros H.
  - exists (fun k => k), (fun _ => 0). split; [intros k; lia|intros; lia].
  - destruct IH as [f [l [G C]]]; [intros; apply H; lia|].
    destruct (subseq1 (fun k => u n (f k)) B) as [g [l' [G' C']]]; [intros; apply H; lia|].
    exists (fun k => f (g k)), (fun i => if Nat.eqb i n then l' else l i). split.
    + intros k. apply grows_mono; [exact G|apply G'].
    + intros i Hi. destruct (Nat.eqb_spec i n) as [-> |Ne]; [exact C'|].
      apply (cv_sub (fun k => u i (f k)) (l i) g G'). apply C. lia.
Qed.
(** ... indexed by two and three coordinates *)
Lemma subseq2 n m (u : nat -> nat -> nat -> R) B : (forall i j k, (i < n)%nat -> (j < m)%nat -> 0 <= u i j k <= B) ->
  exists f l, grows f /\ forall i j, (i < n)%nat -> (j < m)%nat -> Un_cv (fun k => u i j (f k)) (l i j).
Proof.
  intros H. destruct (subseq (n * m) (fun c => u (c / m)%nat (c mod m)%nat) B) as [f [l [G C]]].
  - intros c k Hc. assert (m <> 0%nat) by (intros ->; lia). apply H; [apply Nat.div_lt_upper_bound; lia|apply Nat.mod_upper_bound; assumption].
  - exists f, (fun i j => l (i * m + j)%nat). split; [exact G|]. intros i j Hi Hj.
    eapply cv_ext; [|apply C; nia]. intros k. cbv beta. rewrite Nat.div_add_l, Nat.div_small, Nat.add_0_r by lia.
    rewrite (Nat.add_comm (i * m)), Nat.mod_add, Nat.mod_small by lia. reflexivity.
Qed.
Lemma subseq3 n m q (u : nat -> nat -> nat -> nat -> R) B : (forall i j h k, (i < n)%nat -> (j < m)%nat -> (h < q)%nat -> 0 <= u i j h k <= B) ->
  exists f l, grows f /\ forall i j h, (i < n)%nat -> (j < m)%nat -> (h < q)%nat -> Un_cv (fun k => u i j h (f k)) (l i j h).
Proof.
  intros H. destruct (subseq2 n (m * q) (fun i c => u i (c / q)%nat (c mod q)%nat) B) as [f [l [G C]]].
  - intros i c k Hi Hc. assert (q <> 0%nat) by (intros ->; lia). apply H; [exact Hi|apply Nat.div_lt_upper_bound; lia|apply Nat.mod_upper_bound; assumption].
  - exists f, (fun i j h => l i (j * q + h)%nat). split; [exact G|]. intros i j h Hi Hj Hh.
    eapply cv_ext; [|apply C; [exact Hi|nia]]. intros k. cbv beta. rewrite Nat.div_add_l, Nat.div_small, Nat.add_0_r by lia.
    rewrite (Nat.add_comm (j * q)), Nat.mod_add, Nat.mod_small by lia. reflexivity.
Qed.
