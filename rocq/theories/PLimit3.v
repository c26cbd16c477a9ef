(** C148 for CTMCs learned from traces with dwell times. *)
From Coq Require Import String ZArith Bool Reals List Lia Lra.
From Verif Require Import Num Py SNum SPath LSum MSet SSet LSet MModels MLik MBW LFB LEM SBW LBW LBWSet LBWMC SLik LPath LLik LLik2 LBWLoop LBWPath SExp LEMGen LBWMDP LBWCT PLik LFit PBWMC PBWCT PBWCTU SGain LGain PGain PGain2 SGrad LGrad LGrad2 PGrad PGrad2 SLimit LLimit PLimit.
Import ListNotations.
Local Open Scope R_scope.

Lemma ct_run it p fixed set : ct_ok (it 0%nat) -> timed_set set -> pos_times set -> endless (round_CTMC_timed p fixed set) it ->
  (forall k, ct_ok (it k) /\ ct_frame (it 0%nat) (it k)) /\
  (forall k, set_ll (ct_density (it k)) set + ct_moved set (it k) (it (S k)) <= set_ll (ct_density (it (S k))) set) /\
  (forall k tr t, In (tr, t) set -> (0 < ct_density (it 0%nat) tr <-> 0 < ct_density (it k) tr)).
Proof.
  intros S0 TS HT E.
  assert (A : forall k, ct_ok (it k) /\ ct_frame (it 0%nat) (it k)).
  { apply (endless_inv _ it (fun x => ct_ok x /\ ct_frame (it 0%nat) x) E); [split; [exact S0|repeat split]|].
    intros x x' ll [Sx (F1 & F2 & F3 & F4)] Ex.
    destruct (round_ct_ok x fixed set p x' ll Sx TS HT Ex) as (O & G1 & G2 & G3 & G4). split; [exact O|repeat split; congruence]. }
  split; [exact A|]. split.
  - intros k. destruct (E k) as [ll El]. destruct (A k) as [O _]. apply (ct_gain (it k) fixed set p _ ll); assumption.
  - intros k tr t I. induction k as [|k IH]; [reflexivity|]. rewrite IH. destruct (E k) as [ll El]. destruct (A k) as [[W N] _].
    destruct (C41_ctmc_timed_round_likelihood (it k) _ fixed p set ll W N TS HT El) as (_ & _ & Q). apply (Q tr t I).
Qed.
Lemma ct_dwell_nonneg m set s : ct_ok m -> timed_set set -> pos_times set -> (s < ct_n m)%nat -> 0 <= set_expected (ct_density m) (ct_expected_dwell m s) set.
Proof. intros [W N] A HT Hs. rewrite <- (tDEN_path m set A) by exact Hs. apply (tDEN_nonneg m W set N HT (timed_dw set A) s Hs). Qed.
Lemma ct_moved_nonneg set m m' : ct_ok m -> timed_set set -> pos_times set -> 0 <= ct_moved set m m'.
Proof. intros O A HT. apply Sum_nonneg. intros s Hs. apply Rmult_le_pos; [apply ct_dwell_nonneg; assumption|apply moved_nonneg]. Qed.
Lemma ct_round_possible m fixed set p m' ll : ct_ok m -> timed_set set -> round_CTMC_timed p fixed set m = Ok (m', ll) ->
  (1 < p)%nat \/ forall tr t, In (tr, t) set -> 0 < ct_density m tr.
Proof.
  intros [W N] A E. unfold round_CTMC_timed, update_CTMC in E. destruct (unwrap _) as [temp|] eqn:U; [|discriminate].
  destruct (run_all_possible _ _ _ _ U) as [L|L]; [left; exact L|right]. intros tr t I. specialize (L tr t I). rewrite (pw_timed m W) in L.
  pose proof (t_P_nonneg m W set N tr t I) as Q. change (0 <= tP m tr) in Q.
  destruct (Req_EM_T (Pof (ct_n m) (vget (ct_ini m)) (tW m) (tf m) tr) 0) as [|NZ]; [congruence|]. rewrite tP_path in Q by apply (A tr t I).
  change (tP m tr <> 0) in NZ. rewrite tP_path in NZ by apply (A tr t I). lra.
Qed.

Section CTL.
  Variables (it : nat -> ctmc R) (f : nat -> nat) (m : ctmc R) (p : nat) (fixed : list (list bool)) (set : list ((list string * list R) * Z)).
  Hypothesis S0 : ct_ok (it 0%nat).
  Hypothesis TS : timed_set set.
  Hypothesis HT : pos_times set.
  Hypothesis HE : endless (round_CTMC_timed p fixed set) it.
  Hypothesis HF : grows f.
  Hypothesis HC : ct_tends (fun k => it (f k)) m.
  Notation n := (ct_n m).
  Definition ctl_wk k (ot : string * R) s s' := tb (it (f k)) ot s * tA (it (f k)) ot s s'.
  Definition ctl_wm (ot : string * R) s s' := tb m ot s * tA m ot s s'.
  Definition ctl_fo (_ : nat) (tr : list string * list R) (s : nat) : R := tf m tr s.
  Notation w := ctl_wk. Notation wl := ctl_wm. Notation fo := ctl_fo.
  Notation L := (fun k => set_ll (ct_density (it k)) set).
  Notation a0 := (vget (ct_ini m)).

  Lemma ctl_frame k : ct_n (it (f k)) = n /\ ct_lab (it (f k)) = ct_lab m /\ ct_ini (it (f k)) = ct_ini m.
  Proof. destruct HC as [F _]. destruct (F k) as (A & B & C & _). auto. Qed.
  Lemma ctl_ws k : tW (it (f k)) = fun tr => map (w k) (ots tr).
  Proof. reflexivity. Qed.
  Lemma ctl_wsl : tW m = fun tr => map wl (ots tr).
  Proof. reflexivity. Qed.
  Lemma ctl_fk k : tf (it (f k)) = fo k.
  Proof. unfold tf, ctl_fo, tf. destruct (ctl_frame k) as (_ & -> & _). reflexivity. Qed.
  Lemma ctl_tP k tr : Pof n a0 (fun tr => map (w k) (ots tr)) (fo k) tr = tP (it (f k)) tr.
  Proof. rewrite <- ctl_ws, <- ctl_fk. destruct (ctl_frame k) as (A & _ & B). unfold tP. rewrite A, B. reflexivity. Qed.
  Lemma ctl_P k tr t : In (tr, t) set -> Pof n a0 (fun tr => map (w k) (ots tr)) (fo k) tr = ct_density (it (f k)) tr.
  Proof. intros I. rewrite ctl_tP. apply tP_path. apply (TS tr t I). Qed.
  Lemma ctl_Pl tr t : In (tr, t) set -> Pof n a0 (fun tr => map wl (ots tr)) (fo 0%nat) tr = ct_density m tr.
  Proof. intros I. rewrite <- tP_path by apply (TS tr t I). reflexivity. Qed.
  Lemma ctl_ok k : ct_ok (it k). Proof. apply (ct_run it p fixed set S0 TS HT HE). Qed.
  Lemma ctl_up k : L k <= L (S k).
  Proof.
    destruct (ct_run it p fixed set S0 TS HT HE) as (A & G & _). specialize (G k). pose proof (ct_moved_nonneg set (it k) (it (S k)) (ctl_ok k) TS HT). lra.
  Qed.
  Lemma ctl_okm : ct_ok m.
  Proof.
    destruct HC as [F T]. destruct (F 0%nat) as (F1 & F2 & F3 & _). destruct (ctl_ok (f 0%nat)) as [W0 _]. split.
    - unfold wf_ctmc. destruct T as (T1 & T2 & _). split; [split; assumption|]. rewrite <- F1, <- F2, <- F3. apply W0.
    - apply (rect_nonneg_tends n n (fun k => ct_mat (it (f k)))); [exact T|]. intros k. apply (ctl_ok (f k)).
  Qed.
  Lemma ctl_a : acv n (fun _ => a0) a0.
  Proof. intros s Hs. apply cv_const. Qed.
  Lemma ctl_exit s : (s < n)%nat -> Un_cv (fun k => exit_rate (it (f k)) s) (exit_rate m s).
  Proof.
    intros Hs. destruct ctl_okm as [[[A1 A2] _] _]. unfold exit_rate. rewrite rsum_nth, (A2 (nth s (ct_mat m) [])) by (apply nth_In; rewrite A1; exact Hs).
    apply (cv_ext (fun k => Sum n (matR (ct_mat (it (f k))) s))).
    - intros k. destruct (ctl_ok (f k)) as [[[B1 B2] _] _]. destruct (ctl_frame k) as (Fn & _). rewrite rsum_nth, (B2 (nth s (ct_mat (it (f k))) [])) by (apply nth_In; rewrite B1, Fn; exact Hs).
      rewrite Fn. reflexivity.
    - apply (cv_Sum n (fun k => matR (ct_mat (it (f k))) s)). intros j Hj. apply HC; assumption.
  Qed.
  Lemma ctl_w tr : wcv n w wl tr.
  Proof.
    intros o s s' I Hs Hs'. unfold ctl_wk, ctl_wm. apply (CV_mult (fun k => tb (it (f k)) o s) (fun k => tA (it (f k)) o s s')); [|apply HC; assumption].
    unfold tb. apply (CV_mult (fun k => is_label (ct_lab (it (f k))) (fst o) s) (fun k => exp (- (exit_rate (it (f k)) s * snd o)))).
    - eapply cv_ext; [intros k; destruct (ctl_frame k) as (_ & -> & _); reflexivity|]. apply cv_const.
    - apply (cv_exp (fun k => - (exit_rate (it (f k)) s * snd o))). apply CV_opp. apply (CV_mult _ (fun _ => snd o)); [apply ctl_exit; exact Hs|apply cv_const].
  Qed.
  Lemma ctl_f (tr : list string * list R) (t : Z) s : In (tr, t) set -> (s < n)%nat -> Un_cv (fun k => fo k tr s) (fo 0%nat tr s).
  Proof. intros. exact (cv_const _). Qed.
  Lemma ctl_N k tr (t : Z) : In (tr, t) set -> 0 <= Pof n a0 (fun tr => map (w k) (ots tr)) (fo k) tr.
  Proof. intros I. rewrite ctl_tP. destruct (ctl_ok (f k)) as [W N]. apply (t_P_nonneg (it (f k)) W set N tr t I). Qed.
  Lemma ctl_S k tr (t : Z) : In (tr, t) set -> (0 < Pof n a0 (fun tr => map (w 0%nat) (ots tr)) (fo 0%nat) tr <-> 0 < Pof n a0 (fun tr => map (w k) (ots tr)) (fo k) tr).
  Proof. intros I. rewrite !(ctl_P _ tr t I). destruct (ct_run it p fixed set S0 TS HT HE) as (_ & _ & Q). rewrite <- (Q (f 0%nat) tr t I). apply (Q (f k) tr t I). Qed.
  Lemma ctl_L k : L 0%nat <= set_ll (Pof n a0 (fun tr => map (w k) (ots tr)) (fo k)) set.
  Proof. rewrite (set_ll_ext _ _ set (ctl_P k)). apply (up_le L); [exact ctl_up|lia]. Qed.

  Lemma ctl_ll : Un_cv L (set_ll (ct_density m) set).
  Proof.
    apply (up_cv L _ f ctl_up HF). rewrite <- (set_ll_ext _ _ set ctl_Pl).
    eapply cv_ext; [|apply (ll_cv n set ots (fun _ => a0) a0 w wl fo (fo 0%nat) (L 0%nat) HT ctl_a (fun tr _ _ => ctl_w (ots tr)) ctl_f ctl_N ctl_S ctl_L)].
    intros k. apply (set_ll_ext _ _ set (ctl_P k)).
  Qed.
  Lemma ctl_possible tr t : In (tr, t) set -> (0 < ct_density (it 0%nat) tr <-> 0 < ct_density m tr).
  Proof.
    intros I. destruct (ct_run it p fixed set S0 TS HT HE) as (_ & _ & Q). rewrite (Q (f 0%nat) tr t I), <- (ctl_P 0%nat tr t I), <- (ctl_Pl tr t I).
    apply (possible n set ots (fun _ => a0) a0 w wl fo (fo 0%nat) (L 0%nat) HT ctl_a (fun tr _ _ => ctl_w (ots tr)) ctl_f ctl_N ctl_S ctl_L tr t I).
  Qed.
  Lemma ctl_xi s s' : (s < n)%nat -> (s' < n)%nat -> Un_cv (fun k => cXI (it (f k)) set (tW (it (f k))) (tf (it (f k))) s s') (cXI m set (tW m) (tf m) s s').
  Proof.
    intros Hs Hs'. unfold cXI.
    eapply cv_ext; [|apply (XI_cv n set ots (fun _ => a0) a0 w wl fo (fo 0%nat) (L 0%nat) HT ctl_a (fun tr _ _ => ctl_w (ots tr)) ctl_f ctl_N ctl_S ctl_L (ones1 (tW m)) s s' Hs Hs')].
    intros k. cbv beta. rewrite ctl_fk. destruct (ctl_frame k) as (-> & _ & ->). apply psum_ext. intros y t I P. unfold ones1. rewrite ctl_ws, ctl_wsl, !map_length. reflexivity.
  Qed.
  Lemma ctl_den s : (s < n)%nat -> Un_cv (fun k => cDEN (it (f k)) set (tW (it (f k))) (tf (it (f k))) tc s) (cDEN m set (tW m) (tf m) tc s).
  Proof.
    intros Hs. unfold cDEN.
    eapply cv_ext; [|apply (GA_cv n set ots (fun _ => a0) a0 w wl fo (fo 0%nat) (L 0%nat) HT ctl_a (fun tr _ _ => ctl_w (ots tr)) ctl_f ctl_N ctl_S ctl_L tc s Hs)].
    intros k. cbv beta. rewrite ctl_fk. destruct (ctl_frame k) as (-> & _ & ->). reflexivity.
  Qed.
  (** a fixed rate is kept by a round when its state is used *)
  Definition ctl_num k s s' := if is_fixed fixed s s' then matR (ct_mat (it (f k))) s s' * cDEN (it (f k)) set (tW (it (f k))) (tf (it (f k))) tc s
                               else cXI (it (f k)) set (tW (it (f k))) (tf (it (f k))) s s'.
  Definition ctl_numl s s' := if is_fixed fixed s s' then matR (ct_mat m) s s' * cDEN m set (tW m) (tf m) tc s else cXI m set (tW m) (tf m) s s'.
  Lemma ctl_num_cv s s' : (s < n)%nat -> (s' < n)%nat -> Un_cv (fun k => ctl_num k s s') (ctl_numl s s').
  Proof.
    intros Hs Hs'. unfold ctl_num, ctl_numl. destruct (is_fixed fixed s s'); [|apply ctl_xi; assumption].
    apply CV_mult; [apply HC; assumption|apply ctl_den; exact Hs].
  Qed.

  Hypothesis Fx : forall s s', (s < n)%nat -> (s' < n)%nat -> is_fixed fixed s s' = true -> rate m s s' <> 0 ->
    set_expected (ct_density m) (ct_expected_dwell m s) set <> 0.
  Lemma ctl_fixed : exists ll, round_CTMC_timed p fixed set m = Ok (m, ll).
  Proof.
    pose proof ctl_okm as [W N]. destruct (HE 0%nat) as [l0 E0]. destruct (ctl_ok 0%nat) as [W0 N0].
    destruct (update_CTMC_spec _ fixed set _ _ tc _ (t_work _ W0 fixed set) (t_P_nonneg _ W0 set N0) p _ l0 E0) as (_ & _ & _ & _ & _ & _ & _ & tr & t & I & P).
    change (0 < tP (it 0%nat) tr) in P. rewrite tP_path in P by apply (TS tr t I).
    destruct (round_ct_succeeds m fixed set p (conj W N) TS) as (m' & ll & E).
    - exists tr, t. split; [exact I|]. apply (ctl_possible tr t I). exact P.
    - destruct (ct_round_possible _ fixed set p _ l0 (conj W0 N0) TS E0) as [|Q]; [left; assumption|right]. intros y u J. apply (ctl_possible y u J). apply (Q y u J).
    - exists ll. rewrite E. f_equal. f_equal.
      destruct (update_CTMC_spec m fixed set (tW m) (tf m) tc _ (t_work m W fixed set) (t_P_nonneg m W set N) p m' ll E) as (A & B & C & D & Sq & G & _).
      assert (K : forall s s', (s < n)%nat -> (s' < n)%nat -> mget (ct_mat m') s s' = mget (ct_mat m) s s').
      { intros s s' Hs Hs'. rewrite (G s s' Hs Hs'). unfold cNUM. change (fixed_get fixed s s') with (is_fixed fixed s s').
        destruct (Req_dec (cDEN m set (tW m) (tf m) tc s) 0) as [Z|Z].
        - unfold est. destruct (Req_EM_T _ 0); [|contradiction]. destruct (is_fixed fixed s s') eqn:Fi; [|ring].
          destruct (Req_dec (mget (ct_mat m) s s') 0) as [-> |Nz]; [ring|]. exfalso. apply (Fx s s' Hs Hs' Fi Nz). rewrite <- (tDEN_path m set TS) by exact Hs. exact Z.
        - assert (R1 : est (cDEN m set (tW m) (tf m) tc s) (ctl_numl s) (matR (ct_mat m) s) s' = matR (ct_mat m) s s').
          { destruct (cv_neq0 _ _ Z (ctl_den s Hs)) as [k0 HK]. set (h := fun k => (k0 + k)%nat).
            assert (Gh : grows h) by (intros k; unfold h; lia).
            set (Dk := fun k => cDEN (it (f k)) set (tW (it (f k))) (tf (it (f k))) tc s).
            apply (row_limit_next n (fun k => Dk (h k)) (fun k => ctl_num (h k) s) (fun k => matR (ct_mat (it (f (h k)))) s)
              (fun k => matR (ct_mat (it (S (f (h k))))) s) (fun k => L (S (f (h k))) - L (f (h k))) (cDEN m set (tW m) (tf m) tc s) (ctl_numl s) (matR (ct_mat m) s)); auto.
            + intros k. unfold Dk. destruct (ctl_frame (h k)) as (Fn & _). destruct (ctl_ok (f (h k))) as [Wk Nk].
              apply (tDEN_nonneg _ Wk set Nk HT (timed_dw set TS)). rewrite Fn. exact Hs.
            + intros k j Hj. unfold ctl_num. destruct (ctl_frame (h k)) as (Fn & _). destruct (ctl_ok (f (h k))) as [Wk Nk]. destruct (is_fixed fixed s j).
              * apply Rmult_le_pos; [apply (mget_nonneg (ct_mat (it (f (h k)))) s j Nk)|]. apply (tDEN_nonneg _ Wk set Nk HT (timed_dw set TS)). rewrite Fn. exact Hs.
              * apply (tXI_nonneg _ Wk set Nk HT); rewrite Fn; assumption.
            + intros k j Hj. apply (mget_nonneg (ct_mat (it (f (h k))))). apply (ctl_ok (f (h k))).
            + apply (cv_sub Dk _ h Gh). apply ctl_den. exact Hs.
            + intros j Hj. apply (cv_sub (fun k => ctl_num k s j) _ h Gh). apply ctl_num_cv; assumption.
            + intros j Hj. apply (cv_sub (fun k => matR (ct_mat (it (f k))) s j) _ h Gh). destruct HC as [_ (_ & _ & T)]. apply T; assumption.
            + intros k j Hj. destruct (HE (f (h k))) as [lk Ek]. destruct (ctl_ok (f (h k))) as [Wk Nk]. destruct (ctl_frame (h k)) as (Fn & _).
              destruct (update_CTMC_spec _ fixed set _ _ tc _ (t_work _ Wk fixed set) (t_P_nonneg _ Wk set Nk) p _ lk Ek) as (_ & _ & _ & _ & _ & Gk & _).
              etransitivity; [apply (Gk s j); rewrite Fn; assumption|]. assert (DZ : Dk (h k) <> 0) by (apply HK; unfold h; lia).
              unfold cNUM, ctl_num. unfold Dk in *. unfold est. change (fixed_get fixed s j) with (is_fixed fixed s j). destruct (Req_EM_T _ 0); [contradiction|].
              destruct (is_fixed fixed s j); [|rewrite Rmult_0_r, Rplus_0_l; reflexivity]. change (mget (ct_mat (it (f (h k)))) s j) with (matR (ct_mat (it (f (h k)))) s j). field. exact DZ.
            + intros k. destruct (ct_run it p fixed set S0 TS HT HE) as (_ & Gn & _). specialize (Gn (f (h k))).
              destruct (ctl_frame (h k)) as (Fn & _). pose proof (ctl_ok (f (h k))) as O.
              assert (One : set_expected (ct_density (it (f (h k)))) (ct_expected_dwell (it (f (h k))) s) set * moved (ct_n (it (f (h k)))) (matR (ct_mat (it (f (h k)))) s) (matR (ct_mat (it (S (f (h k))))) s) <= ct_moved set (it (f (h k))) (it (S (f (h k))))).
              { unfold ct_moved. apply (Sum_one_le (ct_n (it (f (h k)))) (fun s => set_expected (ct_density (it (f (h k)))) (ct_expected_dwell (it (f (h k))) s) set * moved (ct_n (it (f (h k)))) (matR (ct_mat (it (f (h k)))) s) (matR (ct_mat (it (S (f (h k))))) s))); [|rewrite Fn; exact Hs].
                intros j Hj. apply Rmult_le_pos; [apply ct_dwell_nonneg; assumption|apply moved_nonneg]. }
              rewrite <- (tDEN_path _ set TS) in One by (rewrite Fn; exact Hs). rewrite Fn in One. unfold Dk. lra.
            + apply (cv_sub (fun k => L (S (f k)) - L (f k)) 0 h Gh). apply (up_step L (set_ll (ct_density m) set) f ctl_up HF). apply (cv_sub L (set_ll (ct_density m) set) f HF). exact ctl_ll. }
          unfold est, ctl_numl in R1. unfold est. change (fixed_get fixed s s') with (is_fixed fixed s s'). destruct (Req_EM_T _ 0); [contradiction|].
          change (matR (ct_mat m) s s') with (mget (ct_mat m) s s') in R1. destruct (is_fixed fixed s s'); [unfold Rdiv; ring|]. lra. }
      destruct m as [mat lab ini name] eqn:Em. destruct m' as [mat' lab' ini' name'] eqn:Em'. cbn in A, B, C. subst lab' ini' name'. f_equal.
      rewrite <- Em in *. change mat with (ct_mat (mkCTMC mat lab ini name)). rewrite <- Em. apply (mat_ext n); [exact Sq|apply W|]. intros s s' Hs Hs'.
      apply (K s s' Hs Hs').
  Qed.
End CTL.

(** Learning can go on for ever. *)
Theorem C148_ctmc_timed_endless : forall (m : ctmc R) (p : nat) (fixed : list (list bool)) set,
  wf_ctmc m -> nonneg_mat (ct_mat m) -> timed_set set -> pos_times set ->
  (exists tr t, In (tr, t) set /\ 0 < ct_density m tr) ->
  ((1 < p)%nat \/ forall tr t, In (tr, t) set -> 0 < ct_density m tr) ->
  exists it, it 0%nat = m /\ endless (round_CTMC_timed p fixed set) it.
Proof.
  intros m p fixed set W N TS HT Hex Hp.
  destruct (endless_exists (round_CTMC_timed p fixed set) (fun x => ct_ok x /\ (exists tr t, In (tr, t) set /\ 0 < ct_density x tr) /\
    ((1 < p)%nat \/ forall tr t, In (tr, t) set -> 0 < ct_density x tr)) m) as (it & A & B & _); [repeat split; auto; apply W| |exists it; auto].
  intros x (Sx & Xx & Px). destruct (round_ct_succeeds x fixed set p Sx TS Xx Px) as (x' & ll & E). exists x', ll. split; [exact E|].
  destruct (C41_ctmc_timed_round_likelihood x x' fixed p set ll (proj1 Sx) (proj2 Sx) TS HT E) as (_ & _ & Q).
  split; [apply (round_ct_ok x fixed set p x' ll Sx TS HT E)|]. split.
  - destruct Xx as (tr & t & I & P). exists tr, t. split; [exact I|]. apply (Q tr t I). exact P.
  - destruct Px as [L|L]; [left; exact L|right]. intros tr t I. apply (Q tr t I). apply (L tr t I).
Qed.
Print Assumptions C148_ctmc_timed_endless.

(** As for the other models.  The fixed rates that are not zero must belong to
    states in which the limit spends time, see C45. *)
Theorem C148_ctmc_timed_limit : forall (it : nat -> ctmc R) (f : nat -> nat) (m : ctmc R) (p : nat) (fixed : list (list bool)) set,
  wf_ctmc (it 0%nat) -> nonneg_mat (ct_mat (it 0%nat)) -> pos_dwell set -> pos_times set -> endless (round_CTMC_timed p fixed set) it ->
  grows f -> ct_tends (fun k => it (f k)) m ->
  (forall s s', (s < ct_n m)%nat -> (s' < ct_n m)%nat -> is_fixed fixed s s' = true -> rate m s s' <> 0 ->
     set_expected (ct_density m) (ct_expected_dwell m s) set <> 0) ->
  (exists ll, round_CTMC_timed p fixed set m = Ok (m, ll)) /\
  (forall A, ct_within fixed m A -> ct_slope set m A 0) /\
  Un_cv (fun k => set_ll (ct_density (it k)) set) (set_ll (ct_density m) set).
Proof.
  intros it f m p fixed set W N D HT HE HF HC Fx. pose proof (pos_dwell_timed set D) as TS. assert (S0 : ct_ok (it 0%nat)) by (split; assumption).
  destruct (ctl_fixed it f m p fixed set S0 TS HT HE HF HC Fx) as [ll E]. pose proof (ctl_okm it f m p fixed set S0 TS HT HE HC) as [Wm Nm].
  split; [exists ll; exact E|]. split; [apply (C146_ctmc_timed_stationary m fixed p set ll Wm Nm D HT E)|].
  apply (ctl_ll it f m p fixed set S0 TS HT HE HF HC).
Qed.
Print Assumptions C148_ctmc_timed_limit.

(** ** Rates stay bounded *)
Lemma shortest set : pos_dwell set -> exists d, 0 < d /\ forall tr t, In (tr, t) set -> forall y, In y (snd tr) -> d <= y.
Proof.
  intros D.
  assert (One : forall l : list R, (forall y, In y l -> 0 < y) -> exists d, 0 < d /\ forall y, In y l -> d <= y).
  { induction l as [|y l IH]; intros H; [exists 1; split; [lra|intros y []]|].
    destruct IH as [d [Dp Dl]]; [intros; apply H; right; assumption|]. exists (Rmin y d). split; [apply Rmin_glb_lt; [apply H; left; reflexivity|exact Dp]|].
    intros z [<-|Iz]; [apply Rmin_l|]. eapply Rle_trans; [apply Rmin_r|]. apply Dl. exact Iz. }
  destruct (One (flat_map (fun x => snd (fst x)) set)) as [d [Dp Dl]].
  - intros y I. apply in_flat_map in I. destruct I as [[tr t] [I Iy]]. apply (proj2 (D tr t I)). exact Iy.
  - exists d. split; [exact Dp|]. intros tr t I y Iy. apply Dl. apply in_flat_map. exists (tr, t). auto.
Qed.
Lemma wsum_ge l c d : length c = length l -> (forall x, In x l -> 0 <= x) -> (forall y, In y c -> d <= y) -> d * wsum l (repeat 1 (length l)) <= wsum l c.
Proof.
  revert c. induction l as [|x l IH]; intros c Lc Hl Hc; [cbn; lra|]. destruct c as [|y c]; [discriminate|].
  cbn [length repeat]. rewrite !wsum_cons. assert (I1 : d * wsum l (repeat 1 (length l)) <= wsum l c) by (apply IH; [cbn in Lc; lia| |]; intros; [apply Hl|apply Hc]; right; assumption).
  pose proof (Hl x (or_introl eq_refl)). pose proof (Hc y (or_introl eq_refl)). nra.
Qed.
Lemma rate_bound m set d s s' : ct_ok m -> pos_dwell set -> pos_times set -> 0 < d -> (forall tr t, In (tr, t) set -> forall y, In y (snd tr) -> d <= y) ->
  (s < ct_n m)%nat -> (s' < ct_n m)%nat -> d * cXI m set (tW m) (tf m) s s' <= cDEN m set (tW m) (tf m) tc s.
Proof.
  intros [W N] D HT Dp Dl Hs Hs'. unfold cDEN. rewrite GA_XI by exact Hs. set (n := ct_n m). set (a0 := vget (ct_ini m)).
  assert (Ix : forall j, (j < n)%nat -> forall x t, In (x, t) set -> 0 < Pof n a0 (tW m) (tf m) x ->
    d * (wsum (xi n a0 (tW m x) (tf m x) s j) (ones1 (tW m) x) * fac n a0 (tW m) (tf m) x t) <= wsum (xi n a0 (tW m x) (tf m x) s j) (tc x) * fac n a0 (tW m) (tf m) x t /\
    0 <= wsum (xi n a0 (tW m x) (tf m x) s j) (ones1 (tW m) x) * fac n a0 (tW m) (tf m) x t).
  { intros j Hj x t I Px. pose proof (fac_pos n set a0 (tW m) (tf m) HT x t I Px) as Fp.
    assert (Xn : forall y, In y (xi n a0 (tW m x) (tf m x) s j) -> 0 <= y).
    { intros y Iy. apply (xi_nonneg n a0 (tW m x) (tf m x) s j y); auto; [apply (t_oka m W)|apply (t_okw m set N x t I)|apply (t_okf m set x t I)]. }
    assert (On : forall y, In y (ones1 (tW m) x) -> 0 <= y) by (intros y Iy; unfold ones1 in Iy; apply repeat_spec in Iy; lra).
    assert (Ge : d * wsum (xi n a0 (tW m x) (tf m x) s j) (ones1 (tW m) x) <= wsum (xi n a0 (tW m x) (tf m x) s j) (tc x)).
    { unfold ones1. rewrite <- (xi_length n a0 (tW m x) (tf m x) s j). apply wsum_ge; auto.
      - rewrite xi_length. unfold tc, tW, ew. rewrite !map_length. reflexivity.
      - intros y Iy. apply in_map_iff in Iy. destruct Iy as [[o z] [<- Iz]]. apply in_combine_r in Iz. apply (Dl x t I). exact Iz. }
    pose proof (wsum_nonneg _ _ Xn On) as Wn. split; [|apply Rmult_le_pos; lra].
    rewrite <- Rmult_assoc. apply Rmult_le_compat_r; [lra|exact Ge]. }
  apply Rle_trans with (XI n set a0 (tW m) (tf m) tc s s').
  - unfold cXI, XI. fold n a0. rewrite (Rmult_comm d), <- psum_scal_r. apply psum_le. intros x t I Px. destruct (Ix s' Hs' x t I Px) as [B _]. lra.
  - apply (Sum_one_le n (fun j => XI n set a0 (tW m) (tf m) tc s j)); [|exact Hs']. intros j Hj. apply psum_nonneg. intros x t I Px.
    destruct (Ix j Hj x t I Px) as [B C]. eapply Rle_trans; [|exact B]. apply Rmult_le_pos; [lra|exact C].
Qed.
Lemma ct_bounded it p fixed set : ct_ok (it 0%nat) -> no_fixed fixed -> pos_dwell set -> pos_times set -> endless (round_CTMC_timed p fixed set) it ->
  exists B, forall s s' k, (s < ct_n (it 0%nat))%nat -> (s' < ct_n (it 0%nat))%nat -> 0 <= matR (ct_mat (it k)) s s' <= B.
Proof.
  intros S0 NF D HT HE. pose proof (pos_dwell_timed set D) as TS. destruct (shortest set D) as (d & Dp & Dl). set (n := ct_n (it 0%nat)).
  destruct (ct_run it p fixed set S0 TS HT HE) as (A & _ & _).
  exists (Sum n (fun s => Sum n (matR (ct_mat (it 0%nat)) s)) + / d). intros s s' k Hs Hs'.
  split; [destruct (A k) as [[_ N] _]; apply (mget_nonneg (ct_mat (it k)) s s' N)|].
  assert (Ip : 0 < / d) by (apply Rinv_0_lt_compat; exact Dp).
  induction k as [|k IH].
  - destruct S0 as [_ N]. assert (Nn : forall i j, 0 <= matR (ct_mat (it 0%nat)) i j) by (intros; apply (mget_nonneg (ct_mat (it 0%nat)) i j N)).
    pose proof (Sum_one_le n (matR (ct_mat (it 0%nat)) s) s' (fun j _ => Nn s j) Hs').
    pose proof (Sum_one_le n (fun i => Sum n (matR (ct_mat (it 0%nat)) i)) s (fun i _ => Sum_nonneg n _ (fun j _ => Nn i j)) Hs) as Q. cbv beta in Q. lra.
  - destruct (A k) as [[W N] (Fn & _)]. fold n in Fn. destruct (HE k) as [lk Ek].
    destruct (update_CTMC_spec _ fixed set _ _ tc _ (t_work _ W fixed set) (t_P_nonneg _ W set N) p _ lk Ek) as (_ & _ & _ & _ & _ & G & _).
    rewrite <- Fn in Hs, Hs'. specialize (G s s' Hs Hs'). unfold est, cNUM in G. change (fixed_get fixed s s') with (is_fixed fixed s s') in G. rewrite NF in G.
    change (matR (ct_mat (it (S k))) s s') with (mget (ct_mat (it (S k))) s s'). rewrite G.
    change (mget (ct_mat (it k)) s s') with (matR (ct_mat (it k)) s s'). rewrite Rmult_0_r, Rplus_0_l.
    destruct (Req_EM_T _ 0) as [Z|Z]; [exact IH|].
    pose proof (rate_bound (it k) set d s s' (conj W N) D HT Dp Dl Hs Hs') as Rb. pose proof (tDEN_nonneg (it k) W set N HT (timed_dw set TS) s Hs) as Dn.
    apply Rle_trans with (/ d).
    + set (q := cDEN (it k) set (tW (it k)) (tf (it k)) tc s) in *. set (z := cXI (it k) set (tW (it k)) (tf (it k)) s s') in *.
      apply (Rmult_le_reg_r q); [lra|]. unfold Rdiv. rewrite Rmult_assoc, Rinv_l, Rmult_1_r by lra. apply (Rmult_le_reg_l d); [exact Dp|].
      rewrite <- Rmult_assoc, Rinv_r by lra. lra.
    + assert (0 <= Sum n (fun s => Sum n (matR (ct_mat (it 0%nat)) s))); [|lra]. apply Sum_nonneg. intros i _. apply Sum_nonneg. intros j _. destruct S0 as [_ N0].
      apply (mget_nonneg (ct_mat (it 0%nat)) i j N0).
Qed.

(** There always is such a model when no rate is fixed: the rates stay bounded. *)
Theorem C148_ctmc_timed_converges : forall (it : nat -> ctmc R) (p : nat) (fixed : list (list bool)) set,
  wf_ctmc (it 0%nat) -> nonneg_mat (ct_mat (it 0%nat)) -> no_fixed fixed -> pos_dwell set -> pos_times set -> endless (round_CTMC_timed p fixed set) it ->
  exists f m, grows f /\ ct_tends (fun k => it (f k)) m /\ wf_ctmc m /\ nonneg_mat (ct_mat m) /\
    (exists ll, round_CTMC_timed p fixed set m = Ok (m, ll)) /\
    Un_cv (fun k => set_ll (ct_density (it k)) set) (set_ll (ct_density m) set).
Proof.
  intros it p fixed set W N NF D HT HE. pose proof (pos_dwell_timed set D) as TS. assert (S0 : ct_ok (it 0%nat)) by (split; assumption).
  destruct (ct_run it p fixed set S0 TS HT HE) as (A & _ & _). set (n := ct_n (it 0%nat)).
  destruct (ct_bounded it p fixed set S0 NF D HT HE) as [B HB].
  destruct (subseq2 n n (fun s j k => matR (ct_mat (it k)) s j) B) as (f & l & G & C); [intros; apply HB; assumption|].
  set (m := mkCTMC (vbuild n (fun s => vbuild n (fun j => l s j))) (ct_lab (it 0%nat)) (ct_ini (it 0%nat)) (ct_name (it 0%nat))).
  assert (En : ct_n m = n) by (unfold ct_n, m; cbn [ct_mat]; apply vbuild_length).
  assert (T : ct_tends (fun k => it (f k)) m).
  { split; [intros k; rewrite En; apply (A (f k))|]. rewrite En. split; [apply vbuild_length|]. split.
    - intros r I. apply in_map_iff in I. destruct I as [s [<- _]]. apply vbuild_length.
    - intros s j Hs Hj. eapply cv_lim; [|apply C; assumption]. symmetry. apply (mget_vbuild n n l); assumption. }
  exists f, m. split; [exact G|]. split; [exact T|]. pose proof (ctl_okm it f m p fixed set S0 TS HT HE T) as [Wm Nm].
  split; [exact Wm|]. split; [exact Nm|].
  destruct (C148_ctmc_timed_limit it f m p fixed set W N D HT HE G T) as (B1 & _ & B2); [intros s s' _ _ F; rewrite NF in F; discriminate|]. split; assumption.
Qed.
Print Assumptions C148_ctmc_timed_converges.

(** ** CTMCs learned from traces without dwell times: the jump chains *)
Theorem C148_ctmc_untimed_converges : forall (it : nat -> ctmc R) (p : nat) (fixed : list (list bool)) (set : list (list string * Z)),
  wf_ctmc (it 0%nat) -> nonneg_mat (ct_mat (it 0%nat)) -> live (it 0%nat) -> no_fixed fixed -> pos_times set -> endless (round_CTMC_untimed p fixed set) it ->
  exists f c, grows f /\ mc_tends (fun k => jump_chain (it (f k))) c /\ wf_mc c /\ substochastic (mc_mat c) /\
    (exists ll, round_MC p set c = Ok (c, ll)) /\
    (forall A, Forall2 row_within (mc_mat c) A -> mc_slope set c A 0) /\
    Un_cv (fun k => set_ll (mc_trace_prob_move (jump_chain (it k))) set) (set_ll (mc_trace_prob_move c) set).
Proof.
  intros it p fixed set W N Lv NF HT HE.
  assert (A : forall k, ct_ok (it k) /\ live (it k)).
  { apply (endless_inv _ it (fun x => ct_ok x /\ live x) HE); [repeat split; auto; apply W|]. intros x x' ll [O Lx] E.
    destruct (round_untimed x fixed p set x' ll O Lx NF HT E) as (_ & O' & L' & _). split; assumption. }
  assert (HE' : endless (round_MC p set) (fun k => jump_chain (it k))).
  { intros k. destruct (HE k) as [ll E]. exists ll. destruct (A k) as [O Lk]. apply (round_untimed _ fixed p set _ ll O Lk NF HT E). }
  destruct (jc_ok _ (proj1 (A 0%nat))) as [W0 N0].
  assert (Sb : substochastic (mc_mat (jump_chain (it 0%nat)))).
  { split; [exact N0|]. intros r Ir. apply Req_le. apply (jc_rows (it 0%nat)); auto. }
  destruct (C148_mc_converges (fun k => jump_chain (it k)) p set W0 Sb HT HE') as (f & c & G & T & Wc & Sc & _).
  destruct (C148_mc_limit (fun k => jump_chain (it k)) f c p set W0 Sb HT HE' G T) as (B1 & B2 & B3).
  exists f, c. split; [exact G|]. split; [exact T|]. split; [exact Wc|]. split; [exact Sc|]. split; [exact B1|]. split; assumption.
Qed.
Print Assumptions C148_ctmc_untimed_converges.
