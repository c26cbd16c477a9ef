(** Learning of parametric CTMCs: a round on timed traces keeps the invariant and
    does not decrease the likelihood. *)
From Coq Require Import String ZArith Bool Reals List Lia Lra Psatz FunctionalExtensionality.
From Verif Require Import Num Py SNum SPath LSum MSet MModels MCtor MLik MBW MPctmc SPctmc LPctmc LCtor LFB LEM SBW SExp LBW LBWSet LBWMC SLik LLik LEMGen LBWMDP LBWCT LBWPath LLik2 PBWCT PPctmc LMM MPLearn SPLearn LPLearn LPLearn2 LPLearn3 LPLearn4 LBWLoop.
Import ListNotations.
Local Open Scope R_scope.

Record pinv (fixed : list string) (pl : plan R) (m : pctmc R) : Prop := mkPinv {
  pv_wf : wf_pctmc m; pv_idx : indexed m; pv_learn : learnable fixed m; pv_val : valued m; pv_plan : plan_ok fixed m pl }.

Lemma free_shape fixed (m m' : pctmc R) : same_shape m m' -> free_params fixed m' = free_params fixed m.
Proof. intros (_ & _ & _ & _ & E & _). unfold free_params. rewrite E. reflexivity. Qed.

Lemma same_shape_trans (a b c : pctmc R) : same_shape a b -> same_shape b c -> same_shape a c.
Proof. intros (A1 & A2 & A3 & A4 & A5 & A6 & A7) (B1 & B2 & B3 & B4 & B5 & B6 & B7). repeat split; congruence. Qed.
Lemma same_shape_refl (a : pctmc R) : same_shape a a.
Proof. repeat split. Qed.

(** The log-likelihood under the current values. *)
Definition pll (set : list ((list string * list R) * Z)) (m : pctmc R) : R :=
  match hval m with Ok h => set_ll (ct_density h) set | Err _ => 0 end.

Lemma timed_step fixed pl (set : list ((list string * list R) * Z)) maxroot p (m m' : pctmc R) ll :
  timed_set set -> pos_times set -> solver maxroot -> pinv fixed pl m ->
  round_PCTMC maxroot KTimed false p pl (map (fun st => (tview (fst st), snd st)) set) m = Ok (m', ll) ->
  pinv fixed pl m' /\ same_shape m m' /\ (forall q, ~ In q (free_params fixed m) -> current m' q = current m q) /\
  exists h h', hval m = Ok h /\ hval m' = Ok h' /\ ll = set_ll (ct_density h) set /\
    set_ll (ct_density h) set <= set_ll (ct_density h') set /\
    (forall tr t, In (tr, t) set -> (0 < ct_density h tr <-> 0 < ct_density h' tr)).
Proof.
  intros Hset HT Hsol [Hwf Hidx Hlearn Hval Hplan] Er.
  destruct (hval_total m Hidx Hval) as [h Hh].
  destruct (timed_round m fixed pl h set Hh Hwf Hidx Hlearn Hval Hplan Hset HT maxroot p m' ll Hsol Er) as (Sh & L & O & z & Z).
  assert (Z' : forall q, In q (free_params fixed m) -> 0 <= z q /\ current m' q = Some (total (pc_val m) q * z q) /\
     (z q = 1 \/ sumL (list_prod (seq 0 (pc_n m)) (seq 0 (pc_n m))) (fun y => INR (adeg m fixed q y) * (set_expected (ct_density h) (ct_expected_dwell h (fst y)) set * mget (ct_mat h) (fst y) (snd y) * z q ^ tdeg m fixed y)) =
                 sumL (list_prod (seq 0 (pc_n m)) (seq 0 (pc_n m))) (fun y => INR (adeg m fixed q y) * set_expected (ct_density h) (ct_expected_moves h (fst y) (snd y)) set))) by (intros q I; destruct (Z q I) as (A & B & [[C _]|C]); auto).
  clear Z; rename Z' into Z.
  assert (Z2 : forall q, In q (free_params fixed m) -> 0 <= z q /\ current m' q = Some (total (pc_val m) q * z q)) by (intros q I; destruct (Z q I) as (A & B & _); auto).
  assert (Hwf' : wf_pctmc m') by (eapply next_wf; eauto).
  assert (Hidx' : indexed m') by (eapply next_indexed; eauto).
  assert (Hlearn' : learnable fixed m') by (eapply next_learnable; eauto).
  assert (Hval' : valued m') by (eapply (next_valued fixed m m' z); eauto).
  assert (Hplan' : plan_ok fixed m' pl) by (eapply (next_plan fixed m m' pl z); eauto).
  split; [constructor; assumption|]. split; [exact Sh|]. split; [exact O|].
  destruct (hval_total m' Hidx' Hval') as [h' Hh']. exists h, h'. split; [exact Hh|]. split; [exact Hh'|]. split; [exact L|].
  assert (En : ct_n h = pc_n m) by (apply hval_n; exact Hh).
  assert (W : wf_ctmc h) by (apply (hval_wf m); assumption).
  assert (W' : wf_ctmc h') by (apply (hval_wf m'); assumption).
  assert (NN : nonneg_mat (ct_mat h)) by (apply (hval_nonneg m); assumption).
  assert (En' : ct_n h' = ct_n h) by (rewrite (hval_n m' h' Hh'), En; apply (shape_expr m m' Sh)).
  pose proof (hval_realises m h Hh) as Rh. pose proof (hval_realises m' h' Hh') as Rh'.
  assert (El : ct_lab h' = ct_lab h) by (destruct Rh as (-> & _), Rh' as (-> & _); apply Sh).
  assert (Ei : ct_ini h' = ct_ini h) by (destruct Rh as (_ & -> & _), Rh' as (_ & -> & _); apply Sh).
  set (N := fun y : nat * nat => set_expected (ct_density h) (ct_expected_moves h (fst y) (snd y)) set) in *.
  set (D := fun s => set_expected (ct_density h) (ct_expected_dwell h s) set) in *.
  assert (HN : forall y, inrange m y -> 0 <= N y) by (intros y [R1 R2]; rewrite <- En in R1, R2; apply (em_X_nonneg h set); assumption).
  assert (HD : forall s, (s < pc_n m)%nat -> 0 <= D s) by (intros s R1; rewrite <- En in R1; apply (em_D_nonneg h set); assumption).
  assert (HNr : forall y, inrange m y -> 0 < N y -> 0 < mget (ct_mat h) (fst y) (snd y)) by (intros y [R1 R2]; rewrite <- En in R1, R2; apply (em_X_supp h set); assumption).
  apply ct_em_mono; auto.
  - rewrite <- En'. apply W'.
  - apply (hval_nonneg m'); assumption.
  - intros s s' R1 R2 E. rewrite En in R1, R2. apply (gain_zero fixed m m' z h h' Hidx Hlearn Hval Sh O Hh Hh' N D) with (y := (s, s')); auto. split; assumption.
  - intros s s' R1 R2 E. rewrite En in R1, R2. apply (gain_supp fixed m m' z h h' Hidx Hlearn Hval Sh O Hh Hh' N D HN HNr Z) with (y := (s, s')); auto. split; assumption.
  - rewrite En. apply (gain fixed m m' z h h' Hidx Hlearn Hval Sh O Hh Hh' N D HN HD HNr Z).
Qed.
