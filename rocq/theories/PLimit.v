(** C148 for MCs, HMMs and MDPs: rounds of learning repeated without end get
    arbitrarily close to models that a round does not change, and the
    likelihoods converge to the likelihood of such a model. *)
From Coq Require Import String ZArith Bool Reals List Lia Lra.
From Verif Require Import Num Py SNum SPath LSum MSet SSet LSet MModels MLik MBW LFB LEM SBW LBW LBWSet LBWMC SLik LPath LLik LLik2 LBWLoop LBWPath SExp LEMGen LBWHMM LBWMDP PLik LFit PBWMC PBWHMM PBWMDP SGain LGain PGain SGrad LGrad LGrad2 PGrad PGrad2 SLimit LLimit.
Import ListNotations.
Local Open Scope R_scope.

(** ** Running a round that always succeeds *)
Lemma endless_exists {M} (round : M -> res (M * R)) (I : M -> Prop) m0 : I m0 ->
  (forall m, I m -> exists m' ll, round m = Ok (m', ll) /\ I m') -> exists it, it 0%nat = m0 /\ endless round it /\ forall k, I (it k).
Proof.
  intros I0 H. set (next := fun m => match round m with Ok (m', _) => m' | Err _ => m end).
  set (it := fix it k := match k with O => m0 | S k' => next (it k') end).
  assert (K : forall k, I (it k) /\ exists ll, round (it k) = Ok (it (S k), ll)).
  { induction k as [|k [IH [ll E]]].
    - split; [exact I0|]. destruct (H m0 I0) as (m' & ll & E & _). exists ll. cbn. unfold next. rewrite E. reflexivity.
    - assert (I1 : I (it (S k))). { destruct (H (it k) IH) as (m' & ll' & E' & Im). rewrite E in E'. inversion E'. subst. exact Im. }
      split; [exact I1|]. destruct (H _ I1) as (m' & ll' & E' & _). exists ll'. rewrite E'. f_equal. f_equal. cbn [it]. unfold next at 1. cbn [it] in E'. rewrite E'. reflexivity. }
  exists it. split; [reflexivity|]. split; [intros k; apply K|intros k; apply K].
Qed.
Lemma endless_inv {M} (round : M -> res (M * R)) it (I : M -> Prop) : endless round it -> I (it 0%nat) -> (forall m m' ll, I m -> round m = Ok (m', ll) -> I m') -> forall k, I (it k).
Proof. intros E I0 H k. induction k as [|k IH]; [exact I0|]. destruct (E k) as [ll El]. exact (H _ _ ll IH El). Qed.
Lemma run_all_possible {S T} p (work : S -> Z -> option T) set temp : unwrap (runProcesses p work set) = Ok temp ->
  (1 < p)%nat \/ forall x t, In (x, t) set -> work x t <> None.
Proof.
  intros E. destruct (Nat.lt_ge_cases 1 p) as [L|L]; [left; exact L|right]. intros x t I Z.
  rewrite (unwrap_run_one_err p work set L) in E; [discriminate|]. exists (x, t). auto.
Qed.
Lemma rect_nonneg n q (a : list (list R)) : length a = n -> (forall r, In r a -> length r = q) ->
  (forall s j, (s < n)%nat -> (j < q)%nat -> 0 <= matR a s j) -> nonneg_mat a.
Proof.
  intros L Rw H r Ir y Iy. apply (In_nth _ _ []) in Ir. destruct Ir as [s [Hs <-]]. apply (In_nth _ _ 0) in Iy. destruct Iy as [j [Hj <-]].
  rewrite (Rw (nth s a [])) in Hj by (apply nth_In; exact Hs). apply (H s j); [lia|exact Hj].
Qed.
Lemma rect_nonneg_tends n q x a : mat_tends n q x a -> (forall k, nonneg_mat (x k)) -> nonneg_mat a.
Proof.
  intros (L & Rw & C) H. apply (rect_nonneg n q); auto. intros s j Hs Hj. apply (cv_nonneg (fun k => matR (x k) s j)); [|apply C; assumption].
  intros k. apply (mget_nonneg (x k)). apply H.
Qed.
Lemma rect_rows_tends n q x a c : mat_tends n q x a -> (forall k, length (x k) = n /\ forall r, In r (x k) -> length r = q) ->
  (forall k r, In r (x k) -> rsum r <= c) -> forall r, In r a -> rsum r <= c.
Proof.
  intros (L & Rw & C) Sh H r Ir. apply (In_nth _ _ []) in Ir. destruct Ir as [s [Hs <-]]. rewrite L in Hs.
  rewrite rsum_nth, (Rw (nth s a [])) by (apply nth_In; lia). apply (cv_le (fun k => rsum (nth s (x k) []))).
  - intros k. apply (H k). apply nth_In. rewrite (proj1 (Sh k)). exact Hs.
  - apply (cv_ext (fun k => Sum q (matR (x k) s))).
    + intros k. rewrite rsum_nth, (proj2 (Sh k) (nth s (x k) [])) by (apply nth_In; rewrite (proj1 (Sh k)); exact Hs). reflexivity.
    + apply (cv_Sum q (fun k => matR (x k) s)). intros j Hj. apply C; assumption.
Qed.

(** ** MC *)
Definition mc_frame (m m' : mc R) : Prop := mc_n m' = mc_n m /\ mc_lab m' = mc_lab m /\ mc_ini m' = mc_ini m /\ mc_name m' = mc_name m.
Lemma mc_run it p set : mc_sub (it 0%nat) -> pos_times set -> endless (round_MC p set) it ->
  (forall k, mc_sub (it k) /\ mc_frame (it 0%nat) (it k)) /\
  (forall k, set_ll (mc_trace_prob_move (it k)) set + mc_moved set (it k) (it (S k)) <= set_ll (mc_trace_prob_move (it (S k))) set) /\
  (forall k tr t, In (tr, t) set -> (0 < mc_trace_prob_move (it 0%nat) tr <-> 0 < mc_trace_prob_move (it k) tr)).
Proof.
  intros S0 HT E.
  assert (A : forall k, mc_sub (it k) /\ mc_frame (it 0%nat) (it k)).
  { apply (endless_inv _ it (fun x => mc_sub x /\ mc_frame (it 0%nat) x) E); [split; [exact S0|repeat split]|].
    intros x x' ll [Sx (F1 & F2 & F3 & F4)] Ex. split; [apply (mc_round_sub x set p x' ll Sx HT Ex)|].
    destruct (round_mc_ok x set p x' ll (proj1 Sx) Ex HT) as (_ & G1 & G2 & G3 & G4). repeat split; congruence. }
  split; [exact A|]. split.
  - intros k. destruct (E k) as [ll El]. destruct (A k) as [[O S1] _]. apply (mc_gain (it k) set p _ ll); assumption.
  - intros k tr t I. induction k as [|k IH]; [reflexivity|]. rewrite IH. destruct (E k) as [ll El]. destruct (A k) as [[O S1] _].
    destruct (round_mc_mono (it k) set p _ ll O S1 HT El) as (_ & _ & Q). apply (Q tr t I).
Qed.
Lemma mc_moved_nonneg set m m' : mc_ok m -> pos_times set -> 0 <= mc_moved set m m'.
Proof. intros O HT. apply Sum_nonneg. intros s Hs. apply Rmult_le_pos; [apply mc_visits_nonneg; assumption|apply moved_nonneg]. Qed.
Lemma mc_round_possible m set p m' ll : mc_ok m -> round_MC p set m = Ok (m', ll) ->
  (1 < p)%nat \/ forall tr t, In (tr, t) set -> 0 < mc_trace_prob_move m tr.
Proof.
  intros [W N] E. unfold round_MC, update_MC in E. destruct (unwrap _) as [temp|] eqn:U; [|discriminate].
  destruct (run_all_possible _ _ _ _ U) as [L|L]; [left; exact L|right]. intros tr t I. specialize (L tr t I). rewrite (pw_mc m W) in L.
  pose proof (mcP_nonneg m N (proj2 (proj2 (proj2 W))) tr) as Q. rewrite mcP_path in *. destruct (Req_EM_T _ 0); [congruence|lra].
Qed.

Section MCL.
  Variables (it : nat -> mc R) (f : nat -> nat) (m : mc R) (p : nat) (set : list (list string * Z)).
  Hypothesis S0 : mc_sub (it 0%nat).
  Hypothesis HT : pos_times set.
  Hypothesis HE : endless (round_MC p set) it.
  Hypothesis HF : grows f.
  Hypothesis HC : mc_tends (fun k => it (f k)) m.
  Notation n := (mc_n m).
  Notation x := (fun k => it (f k)).
  Definition mcl_wk k (o : string) s s' := is_label (mc_lab m) o s * matR (mc_mat (it (f k))) s s'.
  Definition mcl_wm (o : string) s s' := is_label (mc_lab m) o s * matR (mc_mat m) s s'.
  Definition mcl_fo (_ : nat) (_ : list string) (_ : nat) : R := 1.
  Notation w := mcl_wk. Notation wl := mcl_wm. Notation fo := mcl_fo.
  Notation L := (fun k => set_ll (mc_trace_prob_move (it k)) set).

  Lemma mcl_ws k : mc_ws (it (f k)) = fun tr => map (w k) tr.
  Proof. rewrite mc_ws_ew. destruct HC as [F _]. destruct (F k) as (_ & -> & _). reflexivity. Qed.
  Lemma mcl_wsl : mc_ws m = fun tr => map wl tr.
  Proof. rewrite mc_ws_ew. reflexivity. Qed.
  Lemma mcl_P k tr : Pof n (vget (mc_ini m)) (fun tr => map (w k) tr) (fo k) tr = mc_trace_prob_move (it (f k)) tr.
  Proof.
    rewrite <- mcP_path. unfold mcP, Pof. rewrite mcl_ws. destruct HC as [F _]. destruct (F k) as (-> & _ & -> & _). reflexivity.
  Qed.
  Lemma mcl_Pl tr : Pof n (vget (mc_ini m)) (fun tr => map wl tr) (fo 0%nat) tr = mc_trace_prob_move m tr.
  Proof. rewrite <- mcP_path. unfold mcP, Pof. rewrite mcl_wsl. reflexivity. Qed.
  Lemma mcl_sub k : mc_sub (it k). Proof. apply (mc_run it p set S0 HT HE). Qed.
  Lemma mcl_up k : L k <= L (S k).
  Proof.
    destruct (mc_run it p set S0 HT HE) as (A & G & _). specialize (G k). pose proof (mc_moved_nonneg set (it k) (it (S k)) (proj1 (mcl_sub k)) HT). lra.
  Qed.
  Lemma mcl_ok : mc_sub m.
  Proof.
    destruct HC as [F T]. destruct (F 0%nat) as (F1 & F2 & F3 & _). destruct (mcl_sub (f 0%nat)) as [[W0 _] _].
    split; [split|].
    - unfold wf_mc. destruct T as (T1 & T2 & _). split; [split; assumption|]. rewrite <- F1, <- F2, <- F3. apply W0.
    - apply (rect_nonneg_tends n n (fun k => mc_mat (it (f k)))); [exact T|]. intros k. apply (mcl_sub (f k)).
    - apply (rect_rows_tends n n (fun k => mc_mat (it (f k)))); [exact T| |].
      + intros k. destruct (mcl_sub (f k)) as [[[W _] _] _]. destruct (F k) as (-> & _) in W. exact W.
      + intros k. apply (mcl_sub (f k)).
  Qed.
  Lemma mcl_a : acv n (fun _ => vget (mc_ini m)) (vget (mc_ini m)).
  Proof. intros s Hs. apply cv_const. Qed.
  Lemma mcl_w tr : wcv n w wl tr.
  Proof. intros o s s' I Hs Hs'. apply CV_mult; [apply cv_const|]. apply HC; assumption. Qed.
  Lemma mcl_f (tr : list string) (t : Z) s : In (tr, t) set -> (s < n)%nat -> Un_cv (fun k => fo k tr s) 1.
  Proof. intros. exact (cv_const 1). Qed.
  Lemma mcl_N k tr (t : Z) : In (tr, t) set -> 0 <= Pof n (vget (mc_ini m)) (fun tr => map (w k) tr) (fo k) tr.
  Proof. intros _. rewrite mcl_P, <- mcP_path. destruct (mcl_sub (f k)) as [[W N] _]. apply mcP_nonneg; [exact N|apply W]. Qed.
  Lemma mcl_S k tr (t : Z) : In (tr, t) set -> (0 < Pof n (vget (mc_ini m)) (fun tr => map (w 0%nat) tr) (fo 0%nat) tr <-> 0 < Pof n (vget (mc_ini m)) (fun tr => map (w k) tr) (fo k) tr).
  Proof. intros I. rewrite !mcl_P. destruct (mc_run it p set S0 HT HE) as (_ & _ & Q). rewrite <- (Q (f 0%nat) tr t I). apply (Q (f k) tr t I). Qed.
  Lemma mcl_L k : L 0%nat <= set_ll (Pof n (vget (mc_ini m)) (fun tr => map (w k) tr) (fo k)) set.
  Proof. rewrite (set_ll_ext _ _ set (fun tr t _ => mcl_P k tr)). apply (up_le L); [exact mcl_up|lia]. Qed.

  Lemma mcl_ll : Un_cv L (set_ll (mc_trace_prob_move m) set).
  Proof.
    apply (up_cv L _ f mcl_up HF). rewrite <- (set_ll_ext _ _ set (fun tr t _ => mcl_Pl tr)).
    eapply cv_ext; [|apply (ll_cv n set (fun tr => tr) (fun _ => vget (mc_ini m)) (vget (mc_ini m)) w wl fo (fo 0%nat) (L 0%nat) HT mcl_a (fun tr _ _ => mcl_w tr) mcl_f mcl_N mcl_S mcl_L)].
    intros k. apply (set_ll_ext _ _ set (fun tr t _ => mcl_P k tr)).
  Qed.
  Lemma mcl_possible tr t : In (tr, t) set -> (0 < mc_trace_prob_move (it 0%nat) tr <-> 0 < mc_trace_prob_move m tr).
  Proof.
    intros I. destruct (mc_run it p set S0 HT HE) as (_ & _ & Q). rewrite (Q (f 0%nat) tr t I), <- mcl_P, <- mcl_Pl.
    apply (possible n set (fun tr => tr) (fun _ => vget (mc_ini m)) (vget (mc_ini m)) w wl fo (fo 0%nat) (L 0%nat) HT mcl_a (fun tr _ _ => mcl_w tr) mcl_f mcl_N mcl_S mcl_L tr t I).
  Qed.
  Lemma mcl_num s s' : (s < n)%nat -> (s' < n)%nat -> Un_cv (fun k => mcNUM (it (f k)) set s s') (mcNUM m set s s').
  Proof.
    intros Hs Hs'. unfold mcNUM. rewrite mcl_wsl.
    eapply cv_ext; [|apply (XI_cv n set (fun tr => tr) (fun _ => vget (mc_ini m)) (vget (mc_ini m)) w wl fo (fo 0%nat) (L 0%nat) HT mcl_a (fun tr _ _ => mcl_w tr) mcl_f mcl_N mcl_S mcl_L _ s s' Hs Hs')].
    intros k. cbv beta. rewrite mcl_ws. destruct HC as [F _]. destruct (F k) as (-> & _ & -> & _). unfold ones1. apply psum_ext. intros y t I P. rewrite !map_length. reflexivity.
  Qed.
  Lemma mcl_den s : (s < n)%nat -> Un_cv (fun k => mcDEN (it (f k)) set s) (mcDEN m set s).
  Proof.
    intros Hs. rewrite mcDEN_sum by exact Hs. eapply cv_ext; [intros k; symmetry; apply mcDEN_sum; destruct HC as [F _]; destruct (F k) as (-> & _); exact Hs|].
    eapply cv_ext; [intros k; destruct HC as [F _]; destruct (F k) as (-> & _); reflexivity|]. apply (cv_Sum n (fun k => mcNUM (it (f k)) set s)). intros; apply mcl_num; assumption.
  Qed.
  Lemma mcl_fixed : exists ll, round_MC p set m = Ok (m, ll).
  Proof.
    pose proof mcl_ok as [[W N] S1]. destruct (HE 0%nat) as [l0 E0]. destruct (mcl_sub 0%nat) as [[W0 N0] _].
    destruct (round_MC_spec _ W0 set N0 (proj2 (proj2 (proj2 W0))) p _ l0 E0) as (_ & _ & _ & _ & _ & _ & _ & tr & t & I & P).
    rewrite mcP_path in P.
    destruct (round_mc_succeeds m set p (conj W N)) as (m' & ll & E).
    - exists tr, t. split; [exact I|]. apply (mcl_possible tr t I). exact P.
    - destruct (mc_round_possible _ set p _ l0 (conj W0 N0) E0) as [|Q]; [left; assumption|right]. intros y u J. apply (mcl_possible y u J). apply (Q y u J).
    - exists ll. rewrite E. f_equal. f_equal.
      destruct (round_MC_spec m W set N (proj2 (proj2 (proj2 W))) p m' ll E) as (A & B & C & D & Sq & G & _).
      destruct m as [mat lab ini name] eqn:Em. destruct m' as [mat' lab' ini' name'] eqn:Em'. cbn in A, B, C. subst lab' ini' name'. f_equal.
      rewrite <- Em in *. change mat with (mc_mat (mkMC mat lab ini name)). rewrite <- Em. apply (mat_ext n); [exact Sq|apply W|]. intros s s' Hs Hs'.
      etransitivity; [apply (G s s' Hs Hs')|].
      apply (row_limit n (fun k => mcDEN (it (f k)) set s) (fun k => mcNUM (it (f k)) set s) (fun k => matR (mc_mat (it (f k))) s) (fun k => L (S (f k)) - L (f k)) (mcDEN m set s) (mcNUM m set s) (matR (mc_mat m) s)); auto.
      + intros k. destruct HC as [F _]. destruct (F k) as (Fn & _). destruct (mcl_sub (f k)) as [O _]. rewrite mcDEN_path by (rewrite Fn; exact Hs). apply mc_visits_nonneg; [exact O|exact HT|rewrite Fn; exact Hs].
      + intros k j Hj. destruct HC as [F _]. destruct (F k) as (Fn & _). destruct (mcl_sub (f k)) as [[Wk Nk] _]. apply mcNUM_nonneg; auto; [apply Wk|rewrite Fn; exact Hs|rewrite Fn; exact Hj].
      + intros k j Hj. apply (mget_nonneg (mc_mat (it (f k)))). apply (mcl_sub (f k)).
      + apply mcl_den; exact Hs.
      + intros j Hj. apply mcl_num; assumption.
      + intros j Hj. destruct HC as [_ (_ & _ & T)]. apply T; assumption.
      + intros k. destruct (mc_run it p set S0 HT HE) as (_ & Gn & _). specialize (Gn (f k)).
        destruct HC as [F _]. destruct (F k) as (Fn & _). destruct (mcl_sub (f k)) as [O _].
        assert (One : set_expected (mc_trace_prob_move (it (f k))) (mc_expected_visits (it (f k)) s) set * moved (mc_n (it (f k))) (matR (mc_mat (it (f k))) s) (matR (mc_mat (it (S (f k)))) s) <= mc_moved set (it (f k)) (it (S (f k)))).
        { unfold mc_moved. apply (Sum_one_le (mc_n (it (f k))) (fun s => set_expected (mc_trace_prob_move (it (f k))) (mc_expected_visits (it (f k)) s) set * moved (mc_n (it (f k))) (matR (mc_mat (it (f k))) s) (matR (mc_mat (it (S (f k)))) s))); [|rewrite Fn; exact Hs].
          intros j Hj. apply Rmult_le_pos; [apply mc_visits_nonneg; assumption|apply moved_nonneg]. }
        rewrite <- mcDEN_path in One by (rewrite Fn; exact Hs). rewrite Fn in One.
        destruct (HE (f k)) as [lk Ek]. destruct O as [Wk Nk]. destruct (round_MC_spec _ Wk set Nk (proj2 (proj2 (proj2 Wk))) p _ lk Ek) as (_ & _ & _ & _ & _ & Gk & _).
        replace (moved n (matR (mc_mat (it (f k))) s) (est (mcDEN (it (f k)) set s) (mcNUM (it (f k)) set s) (matR (mc_mat (it (f k))) s)))
          with (moved n (matR (mc_mat (it (f k))) s) (matR (mc_mat (it (S (f k)))) s)); [lra|].
        apply Sum_ext. intros j Hj. do 3 f_equal. apply Gk; rewrite Fn; assumption.
      + apply (up_step L (set_ll (mc_trace_prob_move m) set) f mcl_up HF). apply (cv_sub L (set_ll (mc_trace_prob_move m) set) f HF). exact mcl_ll.
  Qed.
End MCL.

(** Learning can go on for ever. *)
Theorem C148_mc_endless : forall (m : mc R) (p : nat) (set : list (list string * Z)),
  wf_mc m -> substochastic (mc_mat m) -> pos_times set ->
  (exists tr t, In (tr, t) set /\ 0 < mc_trace_prob_move m tr) ->
  ((1 < p)%nat \/ forall tr t, In (tr, t) set -> 0 < mc_trace_prob_move m tr) ->
  exists it, it 0%nat = m /\ endless (round_MC p set) it.
Proof.
  intros m p set W [N S1] HT Hex Hp.
  destruct (endless_exists (round_MC p set) (fun x => mc_sub x /\ (exists tr t, In (tr, t) set /\ 0 < mc_trace_prob_move x tr) /\
    ((1 < p)%nat \/ forall tr t, In (tr, t) set -> 0 < mc_trace_prob_move x tr)) m) as (it & A & B & _); [repeat split; auto; apply W| |exists it; auto].
  intros x (Sx & Xx & Px). destruct (round_mc_succeeds x set p (proj1 Sx) Xx Px) as (x' & ll & E). exists x', ll. split; [exact E|].
  destruct (round_mc_mono x set p x' ll (proj1 Sx) (proj2 Sx) HT E) as (_ & _ & Q).
  split; [apply (mc_round_sub x set p x' ll Sx HT E)|]. split.
  - destruct Xx as (tr & t & I & P). exists tr, t. split; [exact I|]. apply (Q tr t I). exact P.
  - destruct Px as [L|L]; [left; exact L|right]. intros tr t I. apply (Q tr t I). apply (L tr t I).
Qed.
Print Assumptions C148_mc_endless.

(** Every model that learning comes arbitrarily close to again and again is left
    unchanged by a round, and is a stationary point of the likelihood; the
    likelihoods converge to its likelihood. *)
Theorem C148_mc_limit : forall (it : nat -> mc R) (f : nat -> nat) (m : mc R) (p : nat) (set : list (list string * Z)),
  wf_mc (it 0%nat) -> substochastic (mc_mat (it 0%nat)) -> pos_times set -> endless (round_MC p set) it ->
  grows f -> mc_tends (fun k => it (f k)) m ->
  (exists ll, round_MC p set m = Ok (m, ll)) /\
  (forall A, Forall2 row_within (mc_mat m) A -> mc_slope set m A 0) /\
  Un_cv (fun k => set_ll (mc_trace_prob_move (it k)) set) (set_ll (mc_trace_prob_move m) set).
Proof.
  intros it f m p set W [N S1] HT HE HF HC. assert (S0 : mc_sub (it 0%nat)) by (repeat split; auto; apply W).
  destruct (mcl_fixed it f m p set S0 HT HE HF HC) as [ll E]. pose proof (mcl_ok it f m p set S0 HT HE HC) as [[Wm Nm] _].
  split; [exists ll; exact E|]. split; [apply (C146_mc_stationary m p set ll Wm Nm HT E)|].
  apply (mcl_ll it f m p set S0 HT HE HF HC).
Qed.
Print Assumptions C148_mc_limit.

(** There always is such a model. *)
Theorem C148_mc_converges : forall (it : nat -> mc R) (p : nat) (set : list (list string * Z)),
  wf_mc (it 0%nat) -> substochastic (mc_mat (it 0%nat)) -> pos_times set -> endless (round_MC p set) it ->
  exists f m, grows f /\ mc_tends (fun k => it (f k)) m /\ wf_mc m /\ substochastic (mc_mat m) /\
    (exists ll, round_MC p set m = Ok (m, ll)) /\
    Un_cv (fun k => set_ll (mc_trace_prob_move (it k)) set) (set_ll (mc_trace_prob_move m) set).
Proof.
  intros it p set W [N S1] HT HE. assert (S0 : mc_sub (it 0%nat)) by (repeat split; auto; apply W).
  destruct (mc_run it p set S0 HT HE) as (A & _ & _). set (n := mc_n (it 0%nat)).
  destruct (subseq2 n n (fun s j k => matR (mc_mat (it k)) s j) 1) as (f & l & G & C).
  { intros s j k Hs Hj. destruct (A k) as [[[Wk Nk] Sk] (Fn & _)]. split; [apply (mget_nonneg (mc_mat (it k)) s j Nk)|].
    apply Rle_trans with (Sum n (matR (mc_mat (it k)) s)).
    - apply (Sum_one_le n (matR (mc_mat (it k)) s)); [|exact Hj]. intros i _. apply (mget_nonneg (mc_mat (it k)) s i Nk).
    - apply row_sub; [unfold n; rewrite <- Fn; apply Wk|exact Sk|exact Hs]. }
  set (m := mkMC (vbuild n (fun s => vbuild n (fun j => l s j))) (mc_lab (it 0%nat)) (mc_ini (it 0%nat)) (mc_name (it 0%nat))).
  assert (En : mc_n m = n) by (unfold mc_n, m; cbn [mc_mat]; apply vbuild_length).
  assert (T : mc_tends (fun k => it (f k)) m).
  { split; [intros k; rewrite En; apply (A (f k))|]. rewrite En. split; [apply vbuild_length|]. split.
    - intros r I. apply in_map_iff in I. destruct I as [s [<- _]]. apply vbuild_length.
    - intros s j Hs Hj. eapply cv_lim; [|apply C; assumption]. symmetry. apply (mget_vbuild n n l); assumption. }
  exists f, m. split; [exact G|]. split; [exact T|]. pose proof (mcl_ok it f m p set S0 HT HE T) as [[Wm Nm] Sm].
  split; [exact Wm|]. split; [split; assumption|]. destruct (C148_mc_limit it f m p set W (conj N S1) HT HE G T) as (B1 & _ & B2). split; assumption.
Qed.
Print Assumptions C148_mc_converges.

(** ** HMM *)
Definition hmm_frame (m m' : hmm R) : Prop := hmm_n m' = hmm_n m /\ hmm_alph m' = hmm_alph m /\ hmm_name m' = hmm_name m.
Definition hmm_valid (m : hmm R) : Prop := wf_hmm m /\ hmm_sub m.
Lemma hmm_valid_ok m : hmm_valid m -> hmm_ok m.
Proof. intros [W ((N1 & _) & (N2 & _) & _)]. repeat split; auto; apply W. Qed.
Lemma hmm_run it p set : hmm_valid (it 0%nat) -> pos_times set -> endless (round_HMM p set) it ->
  (forall k, hmm_valid (it k) /\ hmm_frame (it 0%nat) (it k)) /\
  (forall k, set_ll (hmm_trace_prob_move (it k)) set + hmm_moved set (it k) (it (S k)) <= set_ll (hmm_trace_prob_move (it (S k))) set) /\
  (forall k tr t, In (tr, t) set -> (0 < hmm_trace_prob_move (it 0%nat) tr <-> 0 < hmm_trace_prob_move (it k) tr)).
Proof.
  intros S0 HT E.
  assert (A : forall k, hmm_valid (it k) /\ hmm_frame (it 0%nat) (it k)).
  { apply (endless_inv _ it (fun x => hmm_valid x /\ hmm_frame (it 0%nat) x) E); [split; [exact S0|repeat split]|].
    intros x x' ll [Sx (F1 & F2 & F3)] Ex. split; [apply (hmm_round_sub x set p x' ll (proj1 Sx) (proj2 Sx) HT Ex)|].
    destruct (round_hmm_ok x set p x' ll (hmm_valid_ok x Sx) Ex HT) as (_ & G1 & G2 & G3 & _). repeat split; congruence. }
  split; [exact A|]. split.
  - intros k. destruct (E k) as [ll El]. destruct (A k) as [[W S] _]. apply (hmm_gain (it k) set p _ ll); assumption.
  - intros k tr t I. induction k as [|k IH]; [reflexivity|]. rewrite IH. destruct (E k) as [ll El]. destruct (A k) as [[W S] _].
    destruct (C39_hmm_round_likelihood (it k) _ p set ll W S HT El) as (_ & _ & Q). apply (Q tr t I).
Qed.
Lemma hmm_starts_nonneg m set : wf_hmm m -> nonneg_hmm m -> pos_times set -> forall s, (s < hmm_n m)%nat -> 0 <= hIN m set s.
Proof.
  intros W N HT s Hs. apply (IN_nonneg (hmm_n m) set (vget (hmm_ini m)) (hW m) fo1 HT); auto.
  - intros tr t I. apply (h_okw m set N tr t I).
  - intros tr t I j Hj. lra.
  - apply (h_oka m W).
Qed.
Lemma hmm_visits_nonneg m set s : hmm_ok m -> pos_times set -> (s < hmm_n m)%nat -> 0 <= set_expected (hmm_trace_prob_move m) (hmm_expected_visits m s) set.
Proof. intros [W N] HT Hs. rewrite <- hDEN_path by exact Hs. destruct (hDEN_nonneg m W set N HT s Hs); lra. Qed.
(** the three parts of the moves *)
Lemma hmm_moved_parts set m m' : hmm_ok m -> pos_times set ->
  0 <= hmm_moved set m m' /\
  Sum (hmm_n m) (hIN m set) * moved (hmm_n m) (vecR (hmm_ini m)) (vecR (hmm_ini m')) <= hmm_moved set m m' /\
  forall s, (s < hmm_n m)%nat ->
    hDEN m set s * moved (hmm_n m) (matR (hmm_mat m) s) (matR (hmm_mat m') s) <= hmm_moved set m m' /\
    hDEN m set s * moved (length (hmm_alph m)) (matR (hmm_out m) s) (matR (hmm_out m') s) <= hmm_moved set m m'.
Proof.
  intros [W N] HT. unfold hmm_moved.
  rewrite <- (Sum_ext (hmm_n m) (hIN m set)) by (intros s Hs; apply hIN_path; exact Hs).
  set (F1 := fun s => set_expected (hmm_trace_prob_move m) (hmm_expected_visits m s) set * moved (hmm_n m) (matR (hmm_mat m) s) (matR (hmm_mat m') s)).
  set (F2 := fun s => set_expected (hmm_trace_prob_move m) (hmm_expected_visits m s) set * moved (length (hmm_alph m)) (matR (hmm_out m) s) (matR (hmm_out m') s)).
  assert (Q0 : 0 <= Sum (hmm_n m) (hIN m set) * moved (hmm_n m) (vecR (hmm_ini m)) (vecR (hmm_ini m'))).
  { apply Rmult_le_pos; [|apply moved_nonneg]. apply Sum_nonneg. apply hmm_starts_nonneg; assumption. }
  assert (P1 : forall s, (s < hmm_n m)%nat -> 0 <= F1 s) by (intros s Hs; apply Rmult_le_pos; [apply hmm_visits_nonneg; auto; split; assumption|apply moved_nonneg]).
  assert (P2 : forall s, (s < hmm_n m)%nat -> 0 <= F2 s) by (intros s Hs; apply Rmult_le_pos; [apply hmm_visits_nonneg; auto; split; assumption|apply moved_nonneg]).
  pose proof (Sum_nonneg _ _ P1) as Q1. pose proof (Sum_nonneg _ _ P2) as Q2. split; [lra|]. split; [lra|]. intros s Hs.
  pose proof (Sum_one_le _ _ s P1 Hs) as O1. pose proof (Sum_one_le _ _ s P2 Hs) as O2. unfold F1 at 1 in O1. unfold F2 at 1 in O2. rewrite <- hDEN_path in O1, O2 by exact Hs. split; lra.
Qed.
Lemma hmm_round_possible m set p m' ll : hmm_ok m -> round_HMM p set m = Ok (m', ll) ->
  (1 < p)%nat \/ forall tr t, In (tr, t) set -> 0 < hmm_trace_prob_move m tr.
Proof.
  intros [W N] E. unfold round_HMM, update_HMM in E. destruct (unwrap _) as [temp|] eqn:U; [|discriminate].
  destruct (run_all_possible _ _ _ _ U) as [L|L]; [left; exact L|right]. intros tr t I. specialize (L tr t I). rewrite (h_work m W set tr t I) in L.
  pose proof (h_P_nonneg m W set N tr t I) as Q. rewrite hP_path in *. destruct (Req_EM_T _ 0); [congruence|lra].
Qed.

Section HL.
  Variables (it : nat -> hmm R) (f : nat -> nat) (m : hmm R) (p : nat) (set : list (list string * Z)).
  Hypothesis S0 : hmm_valid (it 0%nat).
  Hypothesis HT : pos_times set.
  Hypothesis HE : endless (round_HMM p set) it.
  Hypothesis HF : grows f.
  Hypothesis HC : hmm_tends (fun k => it (f k)) m.
  Notation n := (hmm_n m).
  Definition hl_wk k (o : string) s s' := emit (it (f k)) o s * matR (hmm_mat (it (f k))) s s'.
  Definition hl_wm (o : string) s s' := emit m o s * matR (hmm_mat m) s s'.
  Definition hl_a k := vget (hmm_ini (it (f k))).
  Notation w := hl_wk. Notation wl := hl_wm. Notation fo := mcl_fo.
  Notation L := (fun k => set_ll (hmm_trace_prob_move (it k)) set).

  Lemma hl_ws k : hW (it (f k)) = fun tr => map (w k) tr. Proof. reflexivity. Qed.
  Lemma hl_wsl : hW m = fun tr => map wl tr. Proof. reflexivity. Qed.
  Lemma hl_n k : hmm_n (it (f k)) = n. Proof. apply (proj1 HC k). Qed.
  Lemma hl_al k : hmm_alph (it (f k)) = hmm_alph m. Proof. apply (proj1 HC k). Qed.
  Lemma hl_P k tr : Pof n (hl_a k) (fun tr => map (w k) tr) (fo k) tr = hmm_trace_prob_move (it (f k)) tr.
  Proof. rewrite <- hP_path. rewrite hl_n. reflexivity. Qed.
  Lemma hl_Pl tr : Pof n (vget (hmm_ini m)) (fun tr => map wl tr) (fo 0%nat) tr = hmm_trace_prob_move m tr.
  Proof. rewrite <- hP_path. reflexivity. Qed.
  Lemma hl_sub k : hmm_valid (it k). Proof. apply (hmm_run it p set S0 HT HE). Qed.
  Lemma hl_up k : L k <= L (S k).
  Proof.
    destruct (hmm_run it p set S0 HT HE) as (A & G & _). specialize (G k). pose proof (proj1 (hmm_moved_parts set (it k) (it (S k)) (hmm_valid_ok _ (hl_sub k)) HT)). lra.
  Qed.
  Lemma hl_ok : hmm_valid m.
  Proof.
    destruct HC as (F & T1 & T2 & T3). assert (Wk : forall k, wf_hmm (it (f k))) by (intros k; apply (hl_sub (f k))).
    split; [|split; [split|split; [split|]]].
    - destruct T1 as (A1 & A2 & _). destruct T2 as (B1 & B2 & _). destruct T3 as [C1 C2]. unfold wf_hmm. split; [split; assumption|]. split; [exact B1|]. split; [exact B2|].
      split; [rewrite <- (hl_al 0%nat); apply (Wk 0%nat)|]. split; [exact C1|].
      intros y Iy. apply (In_nth _ _ 0) in Iy. destruct Iy as [s [Hs <-]]. rewrite C1 in Hs. apply (cv_nonneg (fun k => vecR (hmm_ini (it (f k))) s)); [|apply C2; exact Hs].
      intros k. apply vget_nonneg. apply (Wk k).
    - apply (rect_nonneg_tends n n (fun k => hmm_mat (it (f k)))); [exact T1|]. intros k. apply (hl_sub (f k)).
    - apply (rect_rows_tends n n (fun k => hmm_mat (it (f k)))); [exact T1| |].
      + intros k. rewrite <- (hl_n k). apply (Wk k).
      + intros k. apply (hl_sub (f k)).
    - apply (rect_nonneg_tends n (length (hmm_alph m)) (fun k => hmm_out (it (f k)))); [exact T2|]. intros k. apply (hl_sub (f k)).
    - apply (rect_rows_tends n (length (hmm_alph m)) (fun k => hmm_out (it (f k)))); [exact T2| |].
      + intros k. rewrite <- (hl_n k), <- (hl_al k). destruct (Wk k) as (_ & A & B & _). split; assumption.
      + intros k. apply (hl_sub (f k)).
    - destruct T3 as [C1 C2]. rewrite rsum_nth, C1. apply (cv_le (fun k => rsum (hmm_ini (it (f k))))); [intros k; apply (hl_sub (f k))|].
      apply (cv_ext (fun k => Sum n (vecR (hmm_ini (it (f k)))))).
      + intros k. rewrite rsum_nth. destruct (Wk k) as (_ & _ & _ & _ & -> & _). rewrite hl_n. reflexivity.
      + apply (cv_Sum n (fun k => vecR (hmm_ini (it (f k))))). exact C2.
  Qed.
  Lemma hl_acv : acv n hl_a (vget (hmm_ini m)).
  Proof. intros s Hs. destruct HC as (_ & _ & _ & _ & T). apply T. exact Hs. Qed.
  Lemma hl_w tr : wcv n w wl tr.
  Proof.
    intros o s s' I Hs Hs'. destruct HC as (_ & (_ & _ & T1) & (_ & _ & T2) & _). apply CV_mult; [|apply T1; assumption].
    unfold emit. eapply cv_ext; [intros k; rewrite hl_al; reflexivity|].
    apply (cv_Sum (length (hmm_alph m)) (fun k i => if String.eqb (nth i (hmm_alph m) EmptyString) o then matR (hmm_out (it (f k))) s i else 0)).
    intros i Hi. destruct (String.eqb _ _); [apply T2; assumption|apply cv_const].
  Qed.
  Lemma hl_f (tr : list string) (t : Z) s : In (tr, t) set -> (s < n)%nat -> Un_cv (fun k => fo k tr s) 1.
  Proof. intros. exact (cv_const 1). Qed.
  Lemma hl_N k tr (t : Z) : In (tr, t) set -> 0 <= Pof n (hl_a k) (fun tr => map (w k) tr) (fo k) tr.
  Proof. intros I. rewrite hl_P, <- hP_path. destruct (hmm_valid_ok _ (hl_sub (f k))) as [W N]. apply (h_P_nonneg _ W set N tr t I). Qed.
  Lemma hl_S k tr (t : Z) : In (tr, t) set -> (0 < Pof n (hl_a 0%nat) (fun tr => map (w 0%nat) tr) (fo 0%nat) tr <-> 0 < Pof n (hl_a k) (fun tr => map (w k) tr) (fo k) tr).
  Proof. intros I. rewrite !hl_P. destruct (hmm_run it p set S0 HT HE) as (_ & _ & Q). rewrite <- (Q (f 0%nat) tr t I). apply (Q (f k) tr t I). Qed.
  Lemma hl_L k : L 0%nat <= set_ll (Pof n (hl_a k) (fun tr => map (w k) tr) (fo k)) set.
  Proof. rewrite (set_ll_ext _ _ set (fun tr t _ => hl_P k tr)). apply (up_le L); [exact hl_up|lia]. Qed.

  Lemma hl_ll : Un_cv L (set_ll (hmm_trace_prob_move m) set).
  Proof.
    apply (up_cv L _ f hl_up HF). rewrite <- (set_ll_ext _ _ set (fun tr t _ => hl_Pl tr)).
    eapply cv_ext; [|apply (ll_cv n set (fun tr => tr) hl_a (vget (hmm_ini m)) w wl fo (fo 0%nat) (L 0%nat) HT hl_acv (fun tr _ _ => hl_w tr) hl_f hl_N hl_S hl_L)].
    intros k. apply (set_ll_ext _ _ set (fun tr t _ => hl_P k tr)).
  Qed.
  Lemma hl_possible tr t : In (tr, t) set -> (0 < hmm_trace_prob_move (it 0%nat) tr <-> 0 < hmm_trace_prob_move m tr).
  Proof.
    intros I. destruct (hmm_run it p set S0 HT HE) as (_ & _ & Q). rewrite (Q (f 0%nat) tr t I), <- hl_P, <- hl_Pl.
    apply (possible n set (fun tr => tr) hl_a (vget (hmm_ini m)) w wl fo (fo 0%nat) (L 0%nat) HT hl_acv (fun tr _ _ => hl_w tr) hl_f hl_N hl_S hl_L tr t I).
  Qed.
  Lemma hl_num s s' : (s < n)%nat -> (s' < n)%nat -> Un_cv (fun k => hNUM (it (f k)) set s s') (hNUM m set s s').
  Proof.
    intros Hs Hs'. unfold hNUM. rewrite hl_wsl.
    eapply cv_ext; [|apply (XI_cv n set (fun tr => tr) hl_a (vget (hmm_ini m)) w wl fo (fo 0%nat) (L 0%nat) HT hl_acv (fun tr _ _ => hl_w tr) hl_f hl_N hl_S hl_L _ s s' Hs Hs')].
    intros k. cbv beta. rewrite hl_ws, hl_n. unfold ones1. apply psum_ext. intros y t I P. rewrite !map_length. reflexivity.
  Qed.
  Lemma hl_den s : (s < n)%nat -> Un_cv (fun k => hDEN (it (f k)) set s) (hDEN m set s).
  Proof.
    intros Hs. unfold hDEN. rewrite hl_wsl.
    eapply cv_ext; [|apply (GA_cv n set (fun tr => tr) hl_a (vget (hmm_ini m)) w wl fo (fo 0%nat) (L 0%nat) HT hl_acv (fun tr _ _ => hl_w tr) hl_f hl_N hl_S hl_L _ s Hs)].
    intros k. cbv beta. rewrite hl_ws, hl_n. unfold ones1. apply psum_ext. intros y t I P. rewrite !map_length. reflexivity.
  Qed.
  Lemma hl_nb s j : (s < n)%nat -> Un_cv (fun k => hNB (it (f k)) set s j) (hNB m set s j).
  Proof.
    intros Hs. unfold hNB. rewrite hl_wsl.
    eapply cv_ext; [|apply (GA_cv n set (fun tr => tr) hl_a (vget (hmm_ini m)) w wl fo (fo 0%nat) (L 0%nat) HT hl_acv (fun tr _ _ => hl_w tr) hl_f hl_N hl_S hl_L _ s Hs)].
    intros k. cbv beta. rewrite hl_ws, hl_n, hl_al. reflexivity.
  Qed.
  Lemma hl_in s : (s < n)%nat -> Un_cv (fun k => hIN (it (f k)) set s) (hIN m set s).
  Proof.
    intros Hs. unfold hIN. rewrite hl_wsl.
    eapply cv_ext; [|apply (IN_cv n set (fun tr => tr) hl_a (vget (hmm_ini m)) w wl fo (fo 0%nat) (L 0%nat) HT hl_acv (fun tr _ _ => hl_w tr) hl_f hl_N hl_S hl_L s Hs)].
    intros k. cbv beta. rewrite hl_ws, hl_n. reflexivity.
  Qed.
  Lemma hl_gain k : 0 <= L (S (f k)) - L (f k) /\ hmm_moved set (it (f k)) (it (S (f k))) <= L (S (f k)) - L (f k).
  Proof. pose proof (hl_up (f k)). destruct (hmm_run it p set S0 HT HE) as (_ & G & _). specialize (G (f k)). cbv beta in *. lra. Qed.
  Lemma hl_gain0 : Un_cv (fun k => L (S (f k)) - L (f k)) 0.
  Proof. apply (up_step L (set_ll (hmm_trace_prob_move m) set) f hl_up HF). apply (cv_sub L (set_ll (hmm_trace_prob_move m) set) f HF). exact hl_ll. Qed.
  Lemma hl_fixed : exists ll, round_HMM p set m = Ok (m, ll).
  Proof.
    pose proof hl_ok as V. destruct (hmm_valid_ok m V) as [W N]. destruct (HE 0%nat) as [l0 E0]. destruct (hmm_valid_ok _ (hl_sub 0%nat)) as [W0 N0].
    destruct (round_HMM_spec _ W0 set N0 p _ l0 E0) as (_ & _ & _ & _ & _ & _ & _ & _ & _ & _ & _ & tr & t & I & P).
    rewrite hP_path in P.
    destruct (round_hmm_succeeds m set p (conj W N)) as (m' & ll & E).
    - exists tr, t. split; [exact I|]. apply (hl_possible tr t I). exact P.
    - destruct (hmm_round_possible _ set p _ l0 (conj W0 N0) E0) as [|Q]; [left; assumption|right]. intros y u J. apply (hl_possible y u J). apply (Q y u J).
    - exists ll. rewrite E. f_equal. f_equal.
      destruct (round_HMM_spec m W set N p m' ll E) as (A & B & C & D & Lo & Ro & Li & G & H & Hi & _ & X).
      assert (Wk : forall k, hmm_ok (it (f k))) by (intros k; apply hmm_valid_ok, hl_sub).
      assert (Gk : forall k, exists lk, round_HMM p set (it (f k)) = Ok (it (S (f k)), lk)) by (intros k; apply HE).
      assert (Ea : hmm_mat m' = hmm_mat m).
      { apply (mat_ext n); [exact D|apply W|]. intros s s' Hs Hs'. etransitivity; [apply (G s s' Hs Hs')|].
        apply (row_limit_next n (fun k => hDEN (it (f k)) set s) (fun k => hNUM (it (f k)) set s) (fun k => matR (hmm_mat (it (f k))) s) (fun k => matR (hmm_mat (it (S (f k)))) s) (fun k => L (S (f k)) - L (f k)) (hDEN m set s) (hNUM m set s) (matR (hmm_mat m) s)); auto.
        - intros k. destruct (Wk k) as [Wa Na]. destruct (hDEN_nonneg _ Wa set Na HT s); [rewrite hl_n; exact Hs| |]; lra.
        - intros k j Hj. destruct (Wk k) as [Wa Na]. apply hNUM_nonneg; auto; rewrite hl_n; assumption.
        - intros k j Hj. apply (mget_nonneg (hmm_mat (it (f k)))). apply (Wk k).
        - apply hl_den; exact Hs.
        - intros j Hj. apply hl_num; assumption.
        - intros j Hj. destruct HC as (_ & (_ & _ & T) & _). apply T; assumption.
        - intros k j Hj. destruct (Gk k) as [lk Ek]. destruct (Wk k) as [Wa Na]. destruct (round_HMM_spec _ Wa set Na p _ lk Ek) as (_ & _ & _ & _ & _ & _ & _ & Q & _). apply Q; rewrite hl_n; assumption.
        - intros k. destruct (hmm_moved_parts set (it (f k)) (it (S (f k))) (Wk k) HT) as (_ & _ & Q). destruct (Q s) as [Q1 _]; [rewrite hl_n; exact Hs|]. rewrite hl_n in Q1. pose proof (hl_gain k). cbv beta in *. lra.
        - exact hl_gain0. }
      assert (Eo : hmm_out m' = hmm_out m).
      { apply (rect_ext n (length (hmm_alph m))); try assumption; try apply W. intros s j Hs Hj. etransitivity; [apply (H s j Hs Hj)|].
        apply (row_limit_next (length (hmm_alph m)) (fun k => hDEN (it (f k)) set s) (fun k => hNB (it (f k)) set s) (fun k => matR (hmm_out (it (f k))) s) (fun k => matR (hmm_out (it (S (f k)))) s) (fun k => L (S (f k)) - L (f k)) (hDEN m set s) (hNB m set s) (matR (hmm_out m) s)); auto.
        - intros k. destruct (Wk k) as [Wa Na]. destruct (hDEN_nonneg _ Wa set Na HT s); [rewrite hl_n; exact Hs| |]; lra.
        - intros k i Hi'. destruct (Wk k) as [Wa Na]. apply hNB_nonneg; auto; rewrite hl_n; assumption.
        - intros k i Hi'. apply (mget_nonneg (hmm_out (it (f k)))). apply (Wk k).
        - apply hl_den; exact Hs.
        - intros i Hi'. apply hl_nb; assumption.
        - intros i Hi'. destruct HC as (_ & _ & (_ & _ & T) & _). apply T; assumption.
        - intros k i Hi'. destruct (Gk k) as [lk Ek]. destruct (Wk k) as [Wa Na]. destruct (round_HMM_spec _ Wa set Na p _ lk Ek) as (_ & _ & _ & _ & _ & _ & _ & _ & Q & _). apply Q; [rewrite hl_n|rewrite hl_al]; assumption.
        - intros k. destruct (hmm_moved_parts set (it (f k)) (it (S (f k))) (Wk k) HT) as (_ & _ & Q). destruct (Q s) as [_ Q1]; [rewrite hl_n; exact Hs|]. rewrite hl_al in Q1. pose proof (hl_gain k). cbv beta in *. lra.
        - exact hl_gain0. }
      assert (Ei : hmm_ini m' = hmm_ini m).
      { assert (Li0 : length (hmm_ini m) = n) by apply W. apply (nth_ext _ _ 0 0); [congruence|]. intros s Hs. rewrite Li in Hs.
        assert (Em : vecR (hmm_ini m') s = est (Sum n (hIN m set)) (hIN m set) (vecR (hmm_ini m)) s).
        { unfold est. destruct (Req_EM_T _ 0) as [Z|_]; [pose proof (h_INtot m set HT X); lra|]. apply (Hi s Hs). }
        etransitivity; [exact Em|].
        apply (row_limit_next n (fun k => Sum n (hIN (it (f k)) set)) (fun k => hIN (it (f k)) set) (fun k => vecR (hmm_ini (it (f k)))) (fun k => vecR (hmm_ini (it (S (f k))))) (fun k => L (S (f k)) - L (f k)) (Sum n (hIN m set)) (hIN m set) (vecR (hmm_ini m))); auto.
        - intros k. destruct (Wk k) as [Wa Na]. apply Sum_nonneg. intros i Hi'. apply hmm_starts_nonneg; auto. rewrite hl_n. exact Hi'.
        - intros k j Hj. destruct (Wk k) as [Wa Na]. apply hmm_starts_nonneg; auto; rewrite hl_n; assumption.
        - intros k j Hj. apply vget_nonneg. destruct (Wk k) as [Wa _]. apply Wa.
        - apply (cv_Sum n (fun k => hIN (it (f k)) set)). intros; apply hl_in; assumption.
        - intros j Hj. apply hl_in; assumption.
        - intros j Hj. apply hl_acv. exact Hj.
        - intros k j Hj. destruct (Gk k) as [lk Ek]. destruct (Wk k) as [Wa Na]. destruct (round_HMM_spec _ Wa set Na p _ lk Ek) as (_ & _ & _ & _ & _ & _ & _ & _ & _ & Q & _ & Xk).
          rewrite hl_n in Q. pose proof (h_INtot _ set HT Xk) as Tp. rewrite hl_n in Tp. unfold est. destruct (Req_EM_T _ 0) as [Z|_]; [lra|]. apply (Q j Hj).
        - intros k. destruct (hmm_moved_parts set (it (f k)) (it (S (f k))) (Wk k) HT) as (_ & Q & _). rewrite hl_n in Q. pose proof (hl_gain k). cbv beta in *. lra.
        - exact hl_gain0. }
      destruct m, m'. cbn in *. subst. reflexivity.
  Qed.
End HL.

Theorem C148_hmm_endless : forall (m : hmm R) (p : nat) (set : list (list string * Z)),
  wf_hmm m -> hmm_sub m -> pos_times set ->
  (exists tr t, In (tr, t) set /\ 0 < hmm_trace_prob_move m tr) ->
  ((1 < p)%nat \/ forall tr t, In (tr, t) set -> 0 < hmm_trace_prob_move m tr) ->
  exists it, it 0%nat = m /\ endless (round_HMM p set) it.
Proof.
  intros m p set W S HT Hex Hp.
  destruct (endless_exists (round_HMM p set) (fun x => hmm_valid x /\ (exists tr t, In (tr, t) set /\ 0 < hmm_trace_prob_move x tr) /\
    ((1 < p)%nat \/ forall tr t, In (tr, t) set -> 0 < hmm_trace_prob_move x tr)) m) as (it & A & B & _); [split; [split; assumption|split; assumption]| |exists it; auto].
  intros x (Sx & Xx & Px). destruct (round_hmm_succeeds x set p (hmm_valid_ok x Sx) Xx Px) as (x' & ll & E). exists x', ll. split; [exact E|].
  destruct (C39_hmm_round_likelihood x x' p set ll (proj1 Sx) (proj2 Sx) HT E) as (_ & _ & Q).
  split; [apply (hmm_round_sub x set p x' ll (proj1 Sx) (proj2 Sx) HT E)|]. split.
  - destruct Xx as (tr & t & I & P). exists tr, t. split; [exact I|]. apply (Q tr t I). exact P.
  - destruct Px as [L|L]; [left; exact L|right]. intros tr t I. apply (Q tr t I). apply (L tr t I).
Qed.
Print Assumptions C148_hmm_endless.

Theorem C148_hmm_limit : forall (it : nat -> hmm R) (f : nat -> nat) (m : hmm R) (p : nat) (set : list (list string * Z)),
  wf_hmm (it 0%nat) -> hmm_sub (it 0%nat) -> pos_times set -> endless (round_HMM p set) it ->
  grows f -> hmm_tends (fun k => it (f k)) m ->
  (exists ll, round_HMM p set m = Ok (m, ll)) /\
  (forall A B i, Forall2 row_within (hmm_mat m) A -> Forall2 row_within (hmm_out m) B -> row_within (hmm_ini m) i -> hmm_slope set m A B i 0) /\
  Un_cv (fun k => set_ll (hmm_trace_prob_move (it k)) set) (set_ll (hmm_trace_prob_move m) set).
Proof.
  intros it f m p set W S HT HE HF HC. assert (S0 : hmm_valid (it 0%nat)) by (split; assumption).
  destruct (hl_fixed it f m p set S0 HT HE HF HC) as [ll E]. destruct (hmm_valid_ok m (hl_ok it f m p set S0 HT HE HC)) as [Wm Nm].
  split; [exists ll; exact E|]. split; [apply (C146_hmm_stationary m p set ll Wm Nm HT E)|].
  apply (hl_ll it f m p set S0 HT HE HF HC).
Qed.
Print Assumptions C148_hmm_limit.

Lemma rect_entry n q (a : list (list R)) s j : length a = n -> (forall r, In r a -> length r = q) -> nonneg_mat a -> (forall r, In r a -> rsum r <= 1) ->
  (s < n)%nat -> (j < q)%nat -> 0 <= matR a s j <= 1.
Proof.
  intros L Rw N S1 Hs Hj. assert (I : In (nth s a []) a) by (apply nth_In; lia).
  assert (Nn : forall i, 0 <= matR a s i) by (intros i; apply (mget_nonneg a s i N)). split; [apply Nn|].
  apply Rle_trans with (Sum q (matR a s)); [apply (Sum_one_le q (matR a s)); auto|]. specialize (S1 _ I). rewrite rsum_nth, (Rw _ I) in S1. exact S1.
Qed.
Lemma build_tends n q (x : nat -> list (list R)) l : (forall s j, (s < n)%nat -> (j < q)%nat -> Un_cv (fun k => matR (x k) s j) (l s j)) ->
  mat_tends n q x (vbuild n (fun s => vbuild q (fun j => l s j))).
Proof.
  intros H. split; [apply vbuild_length|]. split.
  - intros r I. apply in_map_iff in I. destruct I as [s [<- _]]. apply vbuild_length.
  - intros s j Hs Hj. eapply cv_lim; [|apply H; assumption]. symmetry. apply (mget_vbuild n q l); assumption.
Qed.
Theorem C148_hmm_converges : forall (it : nat -> hmm R) (p : nat) (set : list (list string * Z)),
  wf_hmm (it 0%nat) -> hmm_sub (it 0%nat) -> pos_times set -> endless (round_HMM p set) it ->
  exists f m, grows f /\ hmm_tends (fun k => it (f k)) m /\ wf_hmm m /\ hmm_sub m /\
    (exists ll, round_HMM p set m = Ok (m, ll)) /\
    Un_cv (fun k => set_ll (hmm_trace_prob_move (it k)) set) (set_ll (hmm_trace_prob_move m) set).
Proof.
  intros it p set W S HT HE. assert (S0 : hmm_valid (it 0%nat)) by (split; assumption).
  destruct (hmm_run it p set S0 HT HE) as (A & _ & _). set (n := hmm_n (it 0%nat)). set (J := length (hmm_alph (it 0%nat))).
  assert (An : forall k, hmm_n (it k) = n) by (intros k; apply (A k)). assert (Aj : forall k, length (hmm_alph (it k)) = J) by (intros k; unfold J; f_equal; apply (A k)).
  destruct (subseq2 n n (fun s j k => matR (hmm_mat (it k)) s j) 1) as (f1 & l1 & G1 & C1).
  { intros s j k Hs Hj. destruct (A k) as [[Wk ((Na & Sa) & _)] _]. destruct Wk as [[Q1 Q2] _]. rewrite An in *. apply (rect_entry n n); assumption. }
  destruct (subseq2 n J (fun s j k => matR (hmm_out (it (f1 k))) s j) 1) as (f2 & l2 & G2 & C2).
  { intros s j k Hs Hj. destruct (A (f1 k)) as [[Wk (_ & (Na & Sa) & _)] _]. destruct Wk as (_ & Q1 & Q2 & _). rewrite An in Q1. rewrite Aj in Q2. apply (rect_entry n J); assumption. }
  destruct (subseq n (fun s k => vecR (hmm_ini (it (f1 (f2 k)))) s) 1) as (f3 & l3 & G3 & C3).
  { intros s k Hs. destruct (A (f1 (f2 k))) as [[Wk (_ & _ & Si)] _]. destruct Wk as (_ & _ & _ & _ & Li & Ni). rewrite An in Li.
    assert (Nn : forall i, 0 <= vecR (hmm_ini (it (f1 (f2 k)))) i) by (intros i; apply vget_nonneg; exact Ni). split; [apply Nn|].
    apply Rle_trans with (Sum n (vecR (hmm_ini (it (f1 (f2 k)))))); [apply (Sum_one_le n (vecR (hmm_ini (it (f1 (f2 k)))))); auto|]. apply vec_sub; assumption. }
  set (f := fun k => f1 (f2 (f3 k))).
  assert (G : grows f) by (intros k; apply (grows_mono f1 _ _ G1); apply (grows_mono f2 _ _ G2); apply G3).
  set (m := mkHMM (vbuild n (fun s => vbuild n (fun j => l1 s j))) (vbuild n (fun s => vbuild J (fun j => l2 s j))) (hmm_alph (it 0%nat)) (vbuild n l3) (hmm_name (it 0%nat))).
  assert (En : hmm_n m = n) by (unfold hmm_n, m; cbn [hmm_mat]; apply vbuild_length).
  assert (T : hmm_tends (fun k => it (f k)) m).
  { split; [intros k; rewrite En; apply (A (f k))|]. rewrite En. change (length (hmm_alph m)) with J. split; [|split].
    - apply (build_tends n n (fun k => hmm_mat (it (f k))) l1). intros s j Hs Hj. unfold f. apply (cv_sub (fun k => matR (hmm_mat (it (f1 k))) s j) _ (fun k => f2 (f3 k))); [|apply C1; assumption].
      intros k. apply (grows_mono f2 _ _ G2). apply G3.
    - apply (build_tends n J (fun k => hmm_out (it (f k))) l2). intros s j Hs Hj. unfold f. apply (cv_sub (fun k => matR (hmm_out (it (f1 (f2 k)))) s j) _ f3); [exact G3|apply C2; assumption].
    - split; [apply vbuild_length|]. intros s Hs. eapply cv_lim; [|apply C3; exact Hs]. symmetry. apply (vget_vbuild n l3); assumption. }
  exists f, m. split; [exact G|]. split; [exact T|]. destruct (hl_ok it f m p set S0 HT HE T) as [Wm Sm].
  split; [exact Wm|]. split; [exact Sm|]. destruct (C148_hmm_limit it f m p set W S HT HE G T) as (B1 & _ & B2). split; assumption.
Qed.
Print Assumptions C148_hmm_converges.
