(** C148 for MDPs. *)
From Coq Require Import String ZArith Bool Reals List Lia Lra.
From Verif Require Import Num Py SNum SPath LSum MSet SSet LSet MModels MLik MBW LFB LEM SBW LBW LBWSet LBWMC SLik LPath LLik LLik2 LBWLoop LBWPath SExp LEMGen LBWHMM LBWMDP PLik LFit PBWMC PBWHMM PBWMDP SGain LGain PGain SGrad LGrad LGrad2 PGrad PGrad2 SLimit LLimit PLimit.
Import ListNotations.
Local Open Scope R_scope.

Definition mdp_sub (m : mdp R) : Prop := mdp_ok m /\ mdp_rows (fun v => v <= 1) m.
Lemma mdp_run it p set : mdp_sub (it 0%nat) -> pos_times set -> alternating_set set -> endless (round_MDP p set) it ->
  (forall k, mdp_sub (it k) /\ same_frame (it 0%nat) (it k)) /\
  (forall k, set_ll (mdp_trace_prob (it k)) set + mdp_moved set (it k) (it (S k)) <= set_ll (mdp_trace_prob (it (S k))) set) /\
  (forall k tr t, In (tr, t) set -> (0 < mdp_trace_prob (it 0%nat) tr <-> 0 < mdp_trace_prob (it k) tr)).
Proof.
  intros S0 HT Al E.
  assert (A : forall k, mdp_sub (it k) /\ same_frame (it 0%nat) (it k)).
  { apply (endless_inv _ it (fun x => mdp_sub x /\ same_frame (it 0%nat) x) E); [split; [exact S0|repeat split]|].
    intros x x' ll [Sx (F1 & F2 & F3 & F4 & F5)] Ex. split; [apply (mdp_round_sub x set p x' ll (proj1 Sx) (proj2 Sx) HT Ex)|].
    destruct (round_mdp_ok x set p x' ll (proj1 Sx) Ex HT) as (_ & G1 & G2 & G3 & G4 & G5). repeat split; congruence. }
  split; [exact A|]. split.
  - intros k. destruct (E k) as [ll El]. destruct (A k) as [[O S1] _]. apply (mdp_gain (it k) set p _ ll); assumption.
  - intros k tr t I. induction k as [|k IH]; [reflexivity|]. rewrite IH. destruct (E k) as [ll El]. destruct (A k) as [[[W N] S1] _].
    destruct (C40_mdp_round_likelihood (it k) _ p set ll W N S1 HT Al El) as (_ & _ & Q). apply (Q tr t I).
Qed.
Lemma mdp_moved_parts set m m' : mdp_ok m -> pos_times set -> alternating_set set ->
  0 <= mdp_moved set m m' /\
  forall s j, (s < mdp_n m)%nat -> (j < length (mdp_act m))%nat ->
    dDEN m set s j * moved (mdp_n m) (tget (mdp_mat m) s j) (tget (mdp_mat m') s j) <= mdp_moved set m m'.
Proof.
  intros [W N] HT Al. unfold mdp_moved.
  set (F := fun s j => set_expected (mdp_trace_prob m) (mdp_expected_visits m s (nth j (mdp_act m) EmptyString)) set
     * moved (mdp_n m) (fun s' => nth s' (nth j (nth s (mdp_mat m) []) []) 0) (fun s' => nth s' (nth j (nth s (mdp_mat m') []) []) 0)).
  assert (Fn : forall s j, (s < mdp_n m)%nat -> 0 <= F s j).
  { intros s j Hs. apply Rmult_le_pos; [|apply moved_nonneg]. rewrite <- (dDEN_path m set W Al s j Hs). destruct (dDEN_nonneg m W set N HT s j Hs); lra. }
  assert (Sn : forall s, (s < mdp_n m)%nat -> 0 <= Sum (length (mdp_act m)) (F s)) by (intros s Hs; apply Sum_nonneg; intros; apply Fn; exact Hs).
  split; [apply (Sum_nonneg (mdp_n m) (fun s => Sum (length (mdp_act m)) (F s))); exact Sn|]. intros s j Hs Hj.
  apply Rle_trans with (Sum (length (mdp_act m)) (F s)); [|apply (Sum_one_le (mdp_n m) (fun s => Sum (length (mdp_act m)) (F s))); assumption].
  apply Rle_trans with (F s j); [|apply (Sum_one_le (length (mdp_act m)) (F s)); auto].
  unfold F. rewrite <- (dDEN_path m set W Al s j Hs). apply Req_le. reflexivity.
Qed.
Lemma mdp_round_possible m set p m' ll : mdp_ok m -> alternating_set set -> round_MDP p set m = Ok (m', ll) ->
  (1 < p)%nat \/ forall tr t, In (tr, t) set -> 0 < mdp_trace_prob m tr.
Proof.
  intros [W N] Al E. unfold round_MDP, update_MDP in E. destruct (unwrap _) as [temp|] eqn:U; [|discriminate].
  destruct (run_all_possible _ _ _ _ U) as [L|L]; [left; exact L|right]. intros tr t I. specialize (L tr t I). rewrite (d_work m W set tr t I) in L.
  pose proof (d_P_nonneg m W set N tr t I) as Q. rewrite (dP_path m tr W (Al tr t I)) in *. destruct (Req_EM_T _ 0); [congruence|lra].
Qed.

Section DL.
  Variables (it : nat -> mdp R) (f : nat -> nat) (m : mdp R) (p : nat) (set : list (list string * Z)).
  Hypothesis S0 : mdp_sub (it 0%nat).
  Hypothesis HT : pos_times set.
  Hypothesis Al : alternating_set set.
  Hypothesis HE : endless (round_MDP p set) it.
  Hypothesis HF : grows f.
  Hypothesis HC : mdp_tends (fun k => it (f k)) m.
  Notation n := (mdp_n m).
  Notation J := (length (mdp_act m)).
  Definition dl_wk k (oa : string * string) s s' := is_label (mdp_lab m) (fst oa) s * act_mat (it (f k)) (snd oa) s s'.
  Definition dl_wm (oa : string * string) s s' := is_label (mdp_lab m) (fst oa) s * act_mat m (snd oa) s s'.
  Definition dl_fo (_ : nat) (tr : list string) (s : nat) := df m tr s.
  Notation w := dl_wk. Notation wl := dl_wm. Notation fo := dl_fo.
  Definition dl_a (_ : nat) := vget (mdp_ini m).
  Notation a := dl_a.
  Notation L := (fun k => set_ll (mdp_trace_prob (it k)) set).

  Lemma dl_n k : mdp_n (it (f k)) = n. Proof. apply (proj1 HC k). Qed.
  Lemma dl_lab k : mdp_lab (it (f k)) = mdp_lab m. Proof. apply (proj1 HC k). Qed.
  Lemma dl_act k : mdp_act (it (f k)) = mdp_act m. Proof. apply (proj1 HC k). Qed.
  Lemma dl_ini k : mdp_ini (it (f k)) = mdp_ini m. Proof. apply (proj1 HC k). Qed.
  Lemma dl_ws k : dW (it (f k)) = fun tr => map (w k) (pairs_of tr).
  Proof. unfold dW, ew, db, dA. rewrite dl_lab. reflexivity. Qed.
  Lemma dl_wsl : dW m = fun tr => map wl (pairs_of tr). Proof. reflexivity. Qed.
  Lemma dl_df k : df (it (f k)) = fo k. Proof. unfold df, dl_fo, df. rewrite dl_lab. reflexivity. Qed.
  Lemma dl_sub k : mdp_sub (it k). Proof. apply (mdp_run it p set S0 HT Al HE). Qed.
  Lemma dl_P k tr (t : Z) : In (tr, t) set -> Pof n (a k) (fun tr => map (w k) (pairs_of tr)) (fo k) tr = mdp_trace_prob (it (f k)) tr.
  Proof. intros I. rewrite <- (dP_path _ tr (proj1 (proj1 (dl_sub (f k)))) (Al tr t I)). rewrite dl_n, dl_ws, dl_df, dl_ini. reflexivity. Qed.
  Lemma dl_up k : L k <= L (S k).
  Proof.
    destruct (mdp_run it p set S0 HT Al HE) as (A & G & _). specialize (G k). pose proof (proj1 (mdp_moved_parts set (it k) (it (S k)) (proj1 (dl_sub k)) HT Al)). lra.
  Qed.
  Lemma dl_ok : mdp_sub m.
  Proof.
    destruct HC as (F & T). assert (Wk : forall k, wf_mdp (it (f k))) by (intros k; apply (dl_sub (f k))).
    split; [split|].
    - split; [|rewrite <- (dl_lab 0%nat), <- (dl_act 0%nat), <- (dl_ini 0%nat), <- (dl_n 0%nat); apply (Wk 0%nat)].
      intros ra I. apply (In_nth _ _ []) in I. destruct I as [s [Hs <-]]. destruct (T s Hs) as (T1 & T2 & _). split; assumption.
    - intros ra I. apply (In_nth _ _ []) in I. destruct I as [s [Hs <-]]. apply (rect_nonneg_tends J n (fun k => nth s (mdp_mat (it (f k))) [])); [apply T; exact Hs|].
      intros k. apply (dl_sub (f k)). apply nth_In. change (s < mdp_n (it (f k)))%nat. rewrite dl_n. exact Hs.
    - intros s j Hs Hj. apply (rect_rows_tends J n (fun k => nth s (mdp_mat (it (f k))) []) (nth s (mdp_mat m) [])); [apply T; exact Hs| | |].
      + intros k. rewrite <- (dl_n k), <- (dl_act k). apply (Wk k). apply nth_In. change (s < mdp_n (it (f k)))%nat. rewrite dl_n. exact Hs.
      + intros k r Ir. apply (In_nth _ _ []) in Ir. destruct Ir as [i [Hi <-]].
        assert (Is : In (nth s (mdp_mat (it (f k))) []) (mdp_mat (it (f k)))) by (apply nth_In; change (s < mdp_n (it (f k)))%nat; rewrite dl_n; exact Hs).
        apply (proj2 (dl_sub (f k)) s i); [rewrite dl_n; exact Hs|]. rewrite <- (proj1 (proj1 (Wk k) _ Is)). exact Hi.
      + apply nth_In. destruct (T s Hs) as (-> & _). exact Hj.
  Qed.
  Lemma dl_Pl tr (t : Z) : In (tr, t) set -> Pof n (vget (mdp_ini m)) (fun tr => map wl (pairs_of tr)) (fo 0%nat) tr = mdp_trace_prob m tr.
  Proof. intros I. rewrite <- (dP_path m tr (proj1 (proj1 dl_ok)) (Al tr t I)). reflexivity. Qed.
  Lemma dl_acv : acv n a (vget (mdp_ini m)).
  Proof. intros s Hs. exact (cv_const _). Qed.
  Lemma dl_w l : wcv n w wl l.
  Proof.
    intros oa s s' I Hs Hs'. destruct HC as (_ & T). destruct (T s Hs) as (_ & _ & C). apply CV_mult; [apply cv_const|].
    unfold act_mat. eapply cv_ext; [intros k; rewrite dl_act; reflexivity|].
    apply (cv_Sum J (fun k i => if String.eqb (nth i (mdp_act m) EmptyString) (snd oa) then nth s' (nth i (nth s (mdp_mat (it (f k))) []) []) 0 else 0)).
    intros i Hi. destruct (String.eqb _ _); [apply (C i s' Hi Hs')|apply cv_const].
  Qed.
  Lemma dl_f (tr : list string) (t : Z) s : In (tr, t) set -> (s < n)%nat -> Un_cv (fun k => fo k tr s) (fo 0%nat tr s).
  Proof. intros. exact (cv_const _). Qed.
  Lemma dl_N k tr (t : Z) : In (tr, t) set -> 0 <= Pof n (a k) (fun tr => map (w k) (pairs_of tr)) (fo k) tr.
  Proof.
    intros I. rewrite (dl_P k tr t I). destruct (dl_sub (f k)) as [[W N] _]. rewrite <- (dP_path _ tr W (Al tr t I)). apply (d_P_nonneg _ W set N tr t I).
  Qed.
  Lemma dl_S k tr (t : Z) : In (tr, t) set -> (0 < Pof n (a 0%nat) (fun tr => map (w 0%nat) (pairs_of tr)) (fo 0%nat) tr <-> 0 < Pof n (a k) (fun tr => map (w k) (pairs_of tr)) (fo k) tr).
  Proof. intros I. rewrite (dl_P 0%nat tr t I), (dl_P k tr t I). destruct (mdp_run it p set S0 HT Al HE) as (_ & _ & Q). rewrite <- (Q (f 0%nat) tr t I). apply (Q (f k) tr t I). Qed.
  Lemma dl_L k : L 0%nat <= set_ll (Pof n (a k) (fun tr => map (w k) (pairs_of tr)) (fo k)) set.
  Proof. rewrite (set_ll_ext _ _ set (fun tr t I => dl_P k tr t I)). apply (up_le L); [exact dl_up|lia]. Qed.

  Lemma dl_ll : Un_cv L (set_ll (mdp_trace_prob m) set).
  Proof.
    apply (up_cv L _ f dl_up HF). rewrite <- (set_ll_ext _ _ set (fun tr t I => dl_Pl tr t I)).
    eapply cv_ext; [|apply (ll_cv n set pairs_of a (vget (mdp_ini m)) w wl fo (fo 0%nat) (L 0%nat) HT dl_acv (fun tr _ _ => dl_w _) dl_f dl_N dl_S dl_L)].
    intros k. apply (set_ll_ext _ _ set (fun tr t I => dl_P k tr t I)).
  Qed.
  Lemma dl_possible tr t : In (tr, t) set -> (0 < mdp_trace_prob (it 0%nat) tr <-> 0 < mdp_trace_prob m tr).
  Proof.
    intros I. destruct (mdp_run it p set S0 HT Al HE) as (_ & _ & Q). rewrite (Q (f 0%nat) tr t I), <- (dl_P _ tr t I), <- (dl_Pl tr t I).
    apply (possible n set pairs_of a (vget (mdp_ini m)) w wl fo (fo 0%nat) (L 0%nat) HT dl_acv (fun tr _ _ => dl_w _) dl_f dl_N dl_S dl_L tr t I).
  Qed.
  Lemma dl_num s j s' : (s < n)%nat -> (s' < n)%nat -> Un_cv (fun k => dNUM (it (f k)) set s j s') (dNUM m set s j s').
  Proof.
    intros Hs Hs'. unfold dNUM. rewrite dl_wsl.
    eapply cv_ext; [|apply (XI_cv n set pairs_of a (vget (mdp_ini m)) w wl fo (fo 0%nat) (L 0%nat) HT dl_acv (fun tr _ _ => dl_w _) dl_f dl_N dl_S dl_L _ s s' Hs Hs')].
    intros k. cbv beta. unfold dc. rewrite dl_ws, dl_n, dl_act, dl_df, dl_ini. reflexivity.
  Qed.
  Lemma dl_den s j : (s < n)%nat -> Un_cv (fun k => dDEN (it (f k)) set s j) (dDEN m set s j).
  Proof.
    intros Hs. unfold dDEN. rewrite dl_wsl.
    eapply cv_ext; [|apply (GA_cv n set pairs_of a (vget (mdp_ini m)) w wl fo (fo 0%nat) (L 0%nat) HT dl_acv (fun tr _ _ => dl_w _) dl_f dl_N dl_S dl_L _ s Hs)].
    intros k. cbv beta. unfold dc. rewrite dl_ws, dl_n, dl_act, dl_df, dl_ini. reflexivity.
  Qed.
  Lemma dl_gain k : mdp_moved set (it (f k)) (it (S (f k))) <= L (S (f k)) - L (f k).
  Proof. destruct (mdp_run it p set S0 HT Al HE) as (_ & G & _). specialize (G (f k)). cbv beta in *. lra. Qed.
  Lemma dl_gain0 : Un_cv (fun k => L (S (f k)) - L (f k)) 0.
  Proof. apply (up_step L (set_ll (mdp_trace_prob m) set) f dl_up HF). apply (cv_sub L (set_ll (mdp_trace_prob m) set) f HF). exact dl_ll. Qed.
  Lemma tget_nonneg (x : mdp R) s j i : nonneg_mdp x -> 0 <= tget (mdp_mat x) s j i.
  Proof.
    intros N. destruct (nth_in_or_default s (mdp_mat x) []) as [I|Z]; [apply (mget_nonneg _ j i); apply (N _ I)|].
    unfold tget. rewrite Z. destruct j, i; cbn; lra.
  Qed.
  Lemma dl_fixed : exists ll, round_MDP p set m = Ok (m, ll).
  Proof.
    pose proof dl_ok as [[W N] S1]. destruct (HE 0%nat) as [l0 E0]. destruct (dl_sub 0%nat) as [[W0 N0] _].
    destruct (round_MDP_spec _ W0 set N0 p _ l0 E0) as (_ & _ & _ & _ & _ & _ & _ & _ & tr & t & I & P).
    rewrite (dP_path _ tr W0 (Al tr t I)) in P.
    destruct (round_mdp_succeeds m set p (conj W N) Al) as (m' & ll & E).
    - exists tr, t. split; [exact I|]. apply (dl_possible tr t I). exact P.
    - destruct (mdp_round_possible _ set p _ l0 (conj W0 N0) Al E0) as [|Q]; [left; assumption|right]. intros y u K. apply (dl_possible y u K). apply (Q y u K).
    - exists ll. rewrite E. f_equal. f_equal.
      destruct (round_MDP_spec m W set N p m' ll E) as (A1 & A2 & A3 & A4 & A5 & Sh & G & _).
      assert (Wk : forall k, mdp_ok (it (f k))) by (intros k; apply dl_sub).
      assert (Ea : mdp_mat m' = mdp_mat m).
      { apply (nth_ext _ _ [] []); [exact A5|]. intros s Hs. change (length (mdp_mat m')) with (mdp_n m') in Hs. rewrite A5 in Hs.
        assert (I' : In (nth s (mdp_mat m') []) (mdp_mat m')) by (apply nth_In; change (length (mdp_mat m')) with (mdp_n m'); lia).
        assert (I0 : In (nth s (mdp_mat m) []) (mdp_mat m)) by (apply nth_In; exact Hs).
        destruct (Sh _ I') as [L1 R1]. destruct (proj1 W _ I0) as [L0 R0].
        apply (rect_ext J n); auto. intros j s' Hj Hs'. etransitivity; [apply (G s j s' Hs Hj Hs')|].
        change (est (dDEN m set s j) (dNUM m set s j) (tget (mdp_mat m) s j) s' = tget (mdp_mat m) s j s').
        apply (row_limit_next n (fun k => dDEN (it (f k)) set s j) (fun k => dNUM (it (f k)) set s j) (fun k => tget (mdp_mat (it (f k))) s j) (fun k => tget (mdp_mat (it (S (f k)))) s j) (fun k => L (S (f k)) - L (f k)) (dDEN m set s j) (dNUM m set s j) (tget (mdp_mat m) s j)); auto.
        - intros k. destruct (Wk k) as [Wa Na]. destruct (dDEN_nonneg _ Wa set Na HT s j); [rewrite dl_n; exact Hs| |]; lra.
        - intros k i Hi. destruct (Wk k) as [Wa Na]. apply dNUM_nonneg; auto; rewrite dl_n; assumption.
        - intros k i Hi. apply tget_nonneg. apply (Wk k).
        - apply dl_den; exact Hs.
        - intros i Hi. apply dl_num; assumption.
        - intros i Hi. destruct HC as (_ & T). destruct (T s Hs) as (_ & _ & C). apply (C j i); assumption.
        - intros k i Hi. destruct (HE (f k)) as [lk Ek]. destruct (Wk k) as [Wa Na]. destruct (round_MDP_spec _ Wa set Na p _ lk Ek) as (_ & _ & _ & _ & _ & _ & Q & _).
          apply Q; [rewrite dl_n; exact Hs|rewrite dl_act; exact Hj|rewrite dl_n; exact Hi].
        - intros k. destruct (mdp_moved_parts set (it (f k)) (it (S (f k))) (Wk k) HT Al) as (_ & Q). specialize (Q s j). rewrite dl_n, dl_act in Q. specialize (Q Hs Hj). pose proof (dl_gain k). cbv beta in *. lra.
        - exact dl_gain0. }
      destruct m, m'. cbn in *. subst. reflexivity.
  Qed.
End DL.

Theorem C148_mdp_endless : forall (m : mdp R) (p : nat) (set : list (list string * Z)),
  wf_mdp m -> nonneg_mdp m -> mdp_rows (fun x => x <= 1) m -> pos_times set -> alternating_set set ->
  (exists tr t, In (tr, t) set /\ 0 < mdp_trace_prob m tr) ->
  ((1 < p)%nat \/ forall tr t, In (tr, t) set -> 0 < mdp_trace_prob m tr) ->
  exists it, it 0%nat = m /\ endless (round_MDP p set) it.
Proof.
  intros m p set W N S HT Al Hex Hp.
  destruct (endless_exists (round_MDP p set) (fun x => mdp_sub x /\ (exists tr t, In (tr, t) set /\ 0 < mdp_trace_prob x tr) /\
    ((1 < p)%nat \/ forall tr t, In (tr, t) set -> 0 < mdp_trace_prob x tr)) m) as (it & A & B & _); [split; [split; [split|]; assumption|split; assumption]| |exists it; auto].
  intros x (Sx & Xx & Px). destruct (round_mdp_succeeds x set p (proj1 Sx) Al Xx Px) as (x' & ll & E). exists x', ll. split; [exact E|].
  destruct Sx as [[Wx Nx] Rx]. destruct (C40_mdp_round_likelihood x x' p set ll Wx Nx Rx HT Al E) as (_ & _ & Q).
  split; [apply (mdp_round_sub x set p x' ll (conj Wx Nx) Rx HT E)|]. split.
  - destruct Xx as (tr & t & I & P). exists tr, t. split; [exact I|]. apply (Q tr t I). exact P.
  - destruct Px as [L|L]; [left; exact L|right]. intros tr t I. apply (Q tr t I). apply (L tr t I).
Qed.
Print Assumptions C148_mdp_endless.

Theorem C148_mdp_limit : forall (it : nat -> mdp R) (f : nat -> nat) (m : mdp R) (p : nat) (set : list (list string * Z)),
  wf_mdp (it 0%nat) -> nonneg_mdp (it 0%nat) -> mdp_rows (fun x => x <= 1) (it 0%nat) -> pos_times set -> alternating_set set ->
  endless (round_MDP p set) it -> grows f -> mdp_tends (fun k => it (f k)) m ->
  (exists ll, round_MDP p set m = Ok (m, ll)) /\
  (forall A, Forall2 (Forall2 row_within) (mdp_mat m) A -> mdp_slope set m A 0) /\
  Un_cv (fun k => set_ll (mdp_trace_prob (it k)) set) (set_ll (mdp_trace_prob m) set).
Proof.
  intros it f m p set W N S HT Al HE HF HC. assert (S0 : mdp_sub (it 0%nat)) by (split; [split|]; assumption).
  destruct (dl_fixed it f m p set S0 HT Al HE HF HC) as [ll E]. destruct (dl_ok it f m p set S0 HT Al HE HC) as [[Wm Nm] _].
  split; [exists ll; exact E|]. split; [apply (C146_mdp_stationary m p set ll Wm Nm HT Al E)|].
  apply (dl_ll it f m p set S0 HT Al HE HF HC).
Qed.
Print Assumptions C148_mdp_limit.

Theorem C148_mdp_converges : forall (it : nat -> mdp R) (p : nat) (set : list (list string * Z)),
  wf_mdp (it 0%nat) -> nonneg_mdp (it 0%nat) -> mdp_rows (fun x => x <= 1) (it 0%nat) -> pos_times set -> alternating_set set ->
  endless (round_MDP p set) it ->
  exists f m, grows f /\ mdp_tends (fun k => it (f k)) m /\ wf_mdp m /\ nonneg_mdp m /\ mdp_rows (fun x => x <= 1) m /\
    (exists ll, round_MDP p set m = Ok (m, ll)) /\
    Un_cv (fun k => set_ll (mdp_trace_prob (it k)) set) (set_ll (mdp_trace_prob m) set).
Proof.
  intros it p set W N S HT Al HE. assert (S0 : mdp_sub (it 0%nat)) by (split; [split|]; assumption).
  destruct (mdp_run it p set S0 HT Al HE) as (A & _ & _). set (n := mdp_n (it 0%nat)). set (J := length (mdp_act (it 0%nat))).
  assert (An : forall k, mdp_n (it k) = n) by (intros k; apply (A k)). assert (Aj : forall k, length (mdp_act (it k)) = J) by (intros k; unfold J; f_equal; apply (A k)).
  destruct (subseq3 n J n (fun s j i k => matR (nth s (mdp_mat (it k)) []) j i) 1) as (f & l & G & C).
  { intros s j i k Hs Hj Hi. destruct (A k) as [[[Wk Nk] Sk] _].
    assert (Is : In (nth s (mdp_mat (it k)) []) (mdp_mat (it k))) by (apply nth_In; change (s < mdp_n (it k))%nat; rewrite An; exact Hs).
    destruct (proj1 Wk _ Is) as [Q1 Q2]. rewrite Aj in Q1. rewrite An in Q2. apply (rect_entry J n); auto. intros r Ir.
    apply (In_nth _ _ []) in Ir. destruct Ir as [h [Hh <-]]. apply (Sk s h); [rewrite An; exact Hs|rewrite Aj, <- Q1; exact Hh]. }
  set (m := mkMDP (vbuild n (fun s => vbuild J (fun j => vbuild n (fun i => l s j i)))) (mdp_lab (it 0%nat)) (mdp_act (it 0%nat)) (mdp_ini (it 0%nat)) (mdp_name (it 0%nat))).
  assert (En : mdp_n m = n) by (unfold mdp_n, m; cbn [mdp_mat]; apply vbuild_length).
  assert (T : mdp_tends (fun k => it (f k)) m).
  { split; [intros k; rewrite En; apply (A (f k))|]. rewrite En. change (length (mdp_act m)) with J. intros s Hs.
    replace (nth s (mdp_mat m) []) with (vbuild J (fun j => vbuild n (fun i => l s j i))).
    - apply (build_tends J n (fun k => nth s (mdp_mat (it (f k))) []) (l s)). intros j i Hj Hi. apply C; assumption.
    - symmetry. cbn [m mdp_mat]. unfold vbuild at 1. rewrite (nth_map_in _ _ _ 0%nat) by (rewrite seq_length; exact Hs). rewrite seq_nth by exact Hs. reflexivity. }
  exists f, m. split; [exact G|]. split; [exact T|]. destruct (dl_ok it f m p set S0 HT Al HE T) as [[Wm Nm] Sm].
  split; [exact Wm|]. split; [exact Nm|]. split; [exact Sm|]. destruct (C148_mdp_limit it f m p set W N S HT Al HE G T) as (B1 & _ & B2). split; assumption.
Qed.
Print Assumptions C148_mdp_converges.
