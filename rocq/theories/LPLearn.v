(** Learning of parametric CTMCs: the likelihood of two CTMCs with the same
    frame, and the rates of a parametric CTMC. *)
From Coq Require Import String ZArith Bool Reals List Lia Lra Psatz FunctionalExtensionality.
From Verif Require Import Num Py SNum SPath LSum MSet MModels MLik MBW LFB LEM SBW SExp LBW LBWSet LBWMC SLik LLik LEMGen LBWMDP LBWCT LBWPath LLik2 PBWCT LMM.
Import ListNotations.
Local Open Scope R_scope.

(** EM: any CTMC with a gain improves the likelihood. *)
Section EM.
  Variables (m m' : ctmc R) (set : list ((list string * list R) * Z)).
  Notation n := (ct_n m).
  Notation X := (fun s s' => set_expected (ct_density m) (ct_expected_moves m s s') set).
  Notation D := (fun s => set_expected (ct_density m) (ct_expected_dwell m s) set).
  Hypothesis Hwf : wf_ctmc m.
  Hypothesis Hnn : nonneg_mat (ct_mat m).
  Hypothesis Hsq' : square n (ct_mat m').
  Hypothesis Hnn' : nonneg_mat (ct_mat m').
  Hypothesis Hla' : ct_lab m' = ct_lab m.
  Hypothesis Hin' : ct_ini m' = ct_ini m.
  Hypothesis Hset : timed_set set.
  Hypothesis HT : pos_times set.
  Hypothesis Hz : forall s s', (s < n)%nat -> (s' < n)%nat -> rate m s s' = 0 -> rate m' s s' = 0.
  Hypothesis Hs : forall s s', (s < n)%nat -> (s' < n)%nat -> 0 < X s s' -> 0 < rate m' s s'.
  Hypothesis Hg : 0 <= Sum n (fun s => Sum n (fun s' => X s s' * ln (rate m' s s' / rate m s s') - D s * (rate m' s s' - rate m s s'))).

  Lemma em_n' : ct_n m' = n. Proof. apply Hsq'. Qed.
  Lemma em_X s s' : (s < n)%nat -> (s' < n)%nat -> cXI m set (tW m) (tf m) s s' = X s s'.
  Proof. apply tXI_path. exact Hset. Qed.
  Lemma em_D s : (s < n)%nat -> cDEN m set (tW m) (tf m) tc s = D s.
  Proof. apply tDEN_path. exact Hset. Qed.

  Lemma em_X_nonneg s s' : (s < n)%nat -> (s' < n)%nat -> 0 <= X s s'.
  Proof. intros. cbv beta. rewrite <- em_X by assumption. apply tXI_nonneg; assumption. Qed.
  Lemma em_D_nonneg s : (s < n)%nat -> 0 <= D s.
  Proof. intros. cbv beta. rewrite <- em_D by assumption. apply tDEN_nonneg; auto. apply timed_dw. exact Hset. Qed.
  Lemma em_X_supp s s' : (s < n)%nat -> (s' < n)%nat -> 0 < X s s' -> 0 < rate m s s'.
  Proof. intros Q1 Q2 P. cbv beta in P. rewrite <- em_X in P by assumption. apply (tXI_supp m set Hnn) in P. exact P. Qed.

  Lemma ct_em_mono : set_ll (ct_density m) set <= set_ll (ct_density m') set /\
    (forall tr t, In (tr, t) set -> (0 < ct_density m tr <-> 0 < ct_density m' tr)).
  Proof.
    assert (P' : forall tr t, In (tr, t) set -> Pof n (vget (ct_ini m)) (tW m') (tf m) tr = ct_density m' tr).
    { intros tr t I. rewrite <- tP_path by apply (Hset tr t I). rewrite em_n', Hin'. unfold Pof, tf. rewrite Hla'. reflexivity. }
    assert (P0 : forall tr t, In (tr, t) set -> tP m tr = ct_density m tr) by (intros tr t I; apply tP_path; apply (Hset tr t I)).
    rewrite <- (set_ll_ext _ _ set P0), <- (set_ll_ext _ _ set P').
    enough (G : set_ll (tP m) set <= set_ll (Pof n (vget (ct_ini m)) (tW m') (tf m)) set /\
                forall tr t, In (tr, t) set -> (0 < tP m tr <-> 0 < Pof n (vget (ct_ini m)) (tW m') (tf m) tr)).
    { destruct G as [G1 G2]. split; [exact G1|]. intros tr t I. rewrite <- (P0 tr t I), <- (P' tr t I). exact (G2 tr t I). }
    apply (em_generic_sum n set ots (tf m) (vget (ct_ini m)) (tA m) (tb m) (vget (ct_ini m)) (tA m') (tb m') HT (t_okf m set) (t_oka m Hwf) (t_oka m Hwf) (t_HA m set Hnn)).
    - intros x t o _ _. split; [intros s s' Q1 Q2; apply mget_nonneg; exact Hnn'|]. intros s Q. unfold tb. pose proof (exp_pos (- (exit_rate m' s * snd o))).
      destruct (LBWMDP.is_label_01 (ct_lab m') (fst o) s) as [-> | ->]; lra.
    - intros x t k d s s' I Px Hk Hs1 Hs2 Pk.
      destruct (xi_factors n set ots (tf m) (vget (ct_ini m)) (tA m) (tb m) (t_okf m set) (t_oka m Hwf) (t_HA m set Hnn) x t k d s s' I Hk Hs1 Hs2 Pk) as [Pe Pb]. split.
      + apply (Hs s s' Hs1 Hs2). cbv beta. rewrite <- em_X by assumption.
        apply (XI_pos n set (vget (ct_ini m)) (tW m) (tf m) HT) with (x := x) (t := t) (k := k); auto using t_oka.
        * intros y u Iy. apply (t_okw m set Hnn y u Iy).
        * intros y u Iy. apply (t_okf m set y u Iy).
        * intros y z Iz. apply (ones1_nonneg (tW m) y z Iz).
        * unfold tW. rewrite ew_length. exact Hk.
        * unfold ones1. rewrite nth_indep with (d' := 1) by (rewrite repeat_length; unfold tW; rewrite ew_length; assumption). rewrite nth_repeat. lra.
      + unfold tb in *. rewrite Hla'. pose proof (exp_pos (- (exit_rate m' s * snd (nth k (ots x) d)))).
        destruct (LBWMDP.is_label_01 (ct_lab m) (fst (nth k (ots x) d)) s) as [Z|Z]; rewrite Z in *; lra.
    - intros x t o s s' I Io Hs1 Hs2 Z. apply Rmult_integral in Z. unfold tb in *. pose proof (exp_pos (- (exit_rate m s * snd o))). destruct Z as [Z|Z].
      + rewrite Hla'. apply Rmult_integral in Z. destruct Z as [Z|Z]; [rewrite Z; ring|lra].
      + unfold tA in *. change (matR (ct_mat m') s s') with (rate m' s s'). rewrite (Hz s s') by assumption. ring.
    - auto.
    - intros s Q1 Q. apply (IN_supp n set (vget (ct_ini m)) (tW m) (tf m)) in Q; auto using t_oka.
    - fold (tW m). rewrite (ini_same_gain n set (vget (ct_ini m)) (tW m) (tf m)). lra.
    - rewrite <- Sum_plus. apply Rle_trans with (1 := Hg). apply Req_le. apply Sum_ext. intros s Hs1. rewrite (t_emit_gain m set m' Hla' s Hs1).
      rewrite (Sum_ext n (fun s' => trans_gain n set ots (tf m) (vget (ct_ini m)) (tA m) (tb m) (tA m') s s') (fun s' => X s s' * ln (rate m' s s' / rate m s s'))).
      2:{ intros s' Hs2. rewrite (t_trans_gain m set m' em_n' s s' Hs1 Hs2), em_X by assumption. reflexivity. }
      rewrite (t_exit m m' s Hsq' Hs1), (t_exit m m s) by (auto; apply Hwf). rewrite em_D by exact Hs1.
      rewrite Sum_minus, (Sum_scal_l n (D s)), (Sum_minus n (fun s' => rate m' s s') (fun s' => rate m s s')).
      change (Sum n (mget (ct_mat m') s)) with (Sum n (fun s' => rate m' s s')). change (Sum n (mget (ct_mat m) s)) with (Sum n (fun s' => rate m s s')). cbv beta. lra.
  Qed.
End EM.
