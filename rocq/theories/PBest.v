(** C159: the probabilities of the chain learned by Alergia are the best ones for
    its transitions; when no state is merged they reproduce the training set. *)
From Coq Require Import String ZArith Bool Reals List Lia Lra Permutation.
From Verif Require Import Num Py SNum SPath LSum MSet SSet LSet MModels MLik SBW SLik LPath LLik LLik2 LRun SAlergia SBest MAlergia LAlergia LAlergia3 LAlergia4 LPLearn3 PLik SGibbs LGibbs PAlergia.
Import ListNotations.
Local Open Scope R_scope.

(** Sum of the numbers [F] along a list of states. *)
Fixpoint salong (F : nat -> nat -> R) (x : list nat) : R :=
  match x with
  | i :: ((j :: _) as r) => F i j + salong F r
  | _ => 0
  end.
Section Det.
  Variables (n : nat) (lab : list string) (A0 : nat -> nat -> R).
  Hypothesis det : forall i j k, (i < n)%nat -> (j < n)%nat -> (k < n)%nat -> A0 i j <> 0 -> A0 i k <> 0 ->
    nth j lab EmptyString = nth k lab EmptyString -> j = k.
  (** [x] is a list of states with labels [t] following the transitions of [A0]. *)
  Fixpoint follows (x : list nat) (t : list string) : Prop :=
    match x, t with
    | [i], [o] => (i < n)%nat /\ nth i lab EmptyString = o
    | i :: ((j :: _) as r), o :: t' => (i < n)%nat /\ nth i lab EmptyString = o /\ A0 i j <> 0 /\ follows r t'
    | _, _ => False
    end.
  Lemma follows_hd x t : follows x t -> (hd O x < n)%nat /\ nth (hd O x) lab EmptyString = hd EmptyString t.
  Proof. destruct x as [|i [|j r]], t as [|o [|o' t]]; cbn; tauto. Qed.
  Lemma follows_len x t : follows x t -> length x = length t.
  Proof.
    revert t. induction x as [|i [|j r] IH]; intros t; [destruct t; cbn; tauto| |].
    - destruct t as [|o [|o' t]]; cbn; tauto.
    - destruct t as [|o t]; [cbn; tauto|]. intros (_ & _ & _ & F). cbn [length]. f_equal. apply (IH t F).
  Qed.
  Lemma det_value A x : (forall i j, (i < n)%nat -> (j < n)%nat -> A0 i j = 0 -> A i j = 0) ->
    forall t, follows x t -> hB n (is_label lab) (repeat A (length t - 1)) t (hd O x) = along A x.
  Proof.
    intros Sp. induction x as [|i [|j r] IH]; intros t F.
    - destruct t; destruct F.
    - destruct t as [|o [|o' t]]; try (cbn in F; tauto). destruct F as [Li E]. cbn. unfold is_label. rewrite E, String.eqb_refl. reflexivity.
    - destruct t as [|o t]; [destruct F|]. destruct F as (Li & E & Nz & F). specialize (IH t F).
      destruct t as [|o' t]; [destruct r; destruct F|]. destruct (follows_hd _ _ F) as [Lj Ej]. cbn [hd] in *.
      replace (length (o :: o' :: t) - 1)%nat with (S (length (o' :: t) - 1)) by (cbn; lia). cbn [repeat].
      change (hB n (is_label lab) (A :: repeat A (length (o' :: t) - 1)) (o :: o' :: t) i) with
        (is_label lab o i * Sum n (fun s' => A i s' * hB n (is_label lab) (repeat A (length (o' :: t) - 1)) (o' :: t) s')).
      change (along A (i :: j :: r)) with (A i j * along A (j :: r)). rewrite <- IH. clear IH.
      replace (is_label lab o i) with 1 by (unfold is_label; rewrite E, String.eqb_refl; reflexivity). rewrite Rmult_1_l.
      rewrite (Sum_ext n _ (fun s' => if Nat.eqb s' j then A i j * hB n (is_label lab) (repeat A (length (o' :: t) - 1)) (o' :: t) j else 0)).
      + rewrite (Sum_indicator_in n j (fun _ => A i j * hB n (is_label lab) (repeat A (length (o' :: t) - 1)) (o' :: t) j) Lj). reflexivity.
      + intros s' Hs'. destruct (Nat.eqb_spec s' j) as [->|NE]; [reflexivity|].
        destruct (Req_dec (A0 i s') 0) as [Z|NZ]; [rewrite (Sp i s' Li Hs' Z); ring|].
        assert (Hz : hB n (is_label lab) (repeat A (length (o' :: t) - 1)) (o' :: t) s' = 0); [|rewrite Hz; ring].
        assert (L0 : is_label lab o' s' = 0).
        { unfold is_label. destruct (String.eqb_spec (nth s' lab EmptyString) o') as [E'|]; [|reflexivity]. exfalso. apply NE. apply (det i s' j); congruence. }
        destruct t as [|o2 t]; cbn [length Nat.sub repeat hB]; rewrite L0; ring.
  Qed.
End Det.

Lemma salong_seq F (g : nat -> nat) k : forall a, salong F (map g (seq a (S k))) = sumL (seq a k) (fun p => F (g p) (g (S p))).
Proof.
  induction k as [|k IH]; intros a; [reflexivity|]. specialize (IH (S a)).
  change (seq a (S (S k))) with (a :: S a :: seq (S (S a)) k). change (seq a (S k)) with (a :: seq (S a) k). rewrite sumL_cons, <- IH. reflexivity.
Qed.
Lemma salong_states F f t : t <> [] -> salong F (states_of f t) = sumL (seq 1 (length t - 1)) (fun p => F (f (firstn p t)) (f (firstn (S p) t))).
Proof.
  intros NE. unfold states_of. replace (length t) with (S (length t - 1)) at 1 by (destruct t; [congruence|cbn; lia]). apply (salong_seq F (fun p => f (firstn p t))).
Qed.
Lemma count_sum {A} (P : A -> bool) l : IZR (Z.of_nat (length (filter P l))) = sumL l (fun a => if P a then 1 else 0).
Proof.
  rewrite <- INR_IZR_INZ. induction l as [|a l IH]; [reflexivity|]. cbn [filter]. rewrite sumL_cons. destruct (P a); [|rewrite IH; ring].
  cbn [length]. rewrite S_INR, IH. ring.
Qed.
Lemma Sum2_delta n a b F : (a < n)%nat -> (b < n)%nat -> Sum n (fun i => Sum n (fun j => if (a =? i)%nat && (b =? j)%nat then F i j else 0)) = F a b.
Proof.
  intros La Lb. rewrite (Sum_ext n _ (fun i => if Nat.eqb i a then Sum n (fun j => if Nat.eqb j b then F a j else 0) else 0)).
  - rewrite (Sum_indicator_in n a (fun _ => Sum n (fun j => if Nat.eqb j b then F a j else 0)) La). apply (Sum_indicator_in n b (F a) Lb).
  - intros i Hi. rewrite (Nat.eqb_sym a i). destruct (Nat.eqb_spec i a) as [->|]; cbn [andb].
    + apply Sum_ext. intros j Hj. rewrite (Nat.eqb_sym b j). reflexivity.
    + apply Sum_zero_ext. reflexivity.
Qed.
(** A sum along a trace, counted by transitions. *)
Lemma salong_moves n F f t : t <> [] -> (forall p, (1 <= p <= length t)%nat -> (f (firstn p t) < n)%nat) ->
  salong F (states_of f t) = Sum n (fun i => Sum n (fun j => IZR (Z.of_nat (moves f t i j)) * F i j)).
Proof.
  intros NE B. rewrite salong_states by exact NE.
  rewrite (sumL_ext _ _ (fun p => Sum n (fun i => Sum n (fun j => if (f (firstn p t) =? i)%nat && (f (firstn (S p) t) =? j)%nat then F i j else 0)))).
  2:{ intros p I. apply in_seq in I. symmetry. apply (Sum2_delta n _ _ F); apply B; lia. }
  unfold Sum. rewrite sumL_swap. apply sumL_ext. intros i _. rewrite sumL_swap. apply sumL_ext. intros j _.
  unfold moves. rewrite count_sum. rewrite <- sumL_scal_r. apply sumL_ext. intros p _. destruct (_ && _); ring.
Qed.
Lemma visits_sum f T i j : IZR (visits f T i j) = sumL T (fun tm => IZR (snd tm) * IZR (Z.of_nat (moves f (fst tm) i j))).
Proof. unfold visits. induction T as [|tm T IH]; [reflexivity|]. cbn [fold_right]. rewrite plus_IZR, mult_IZR, IH, sumL_cons. reflexivity. Qed.
Lemma visits_from_sum f T n i : IZR (visits_from f T n i) = Sum n (fun j => IZR (visits f T i j)).
Proof. unfold visits_from, Sum. generalize (seq 0 n). intros l. induction l as [|j l IH]; [reflexivity|]. cbn [fold_right]. rewrite plus_IZR, IH, sumL_cons. reflexivity. Qed.
Lemma salong_set n F f T : (forall t k, In (t, k) T -> t <> [] /\ forall p, (1 <= p <= length t)%nat -> (f (firstn p t) < n)%nat) ->
  sumL T (fun tm => IZR (snd tm) * salong F (states_of f (fst tm))) = Sum n (fun i => Sum n (fun j => IZR (visits f T i j) * F i j)).
Proof.
  intros B. rewrite (sumL_ext T _ (fun tm => Sum n (fun i => Sum n (fun j => IZR (snd tm) * IZR (Z.of_nat (moves f (fst tm) i j)) * F i j)))).
  - unfold Sum. rewrite sumL_swap. apply sumL_ext. intros i _. rewrite sumL_swap. apply sumL_ext. intros j _.
    rewrite visits_sum, <- sumL_scal_r. reflexivity.
  - intros [t k] I. destruct (B t k I) as [NE Bp]. cbn [fst snd]. rewrite (salong_moves n F f t NE Bp). rewrite <- Sum_scal_l. apply Sum_ext. intros i _.
    rewrite <- Sum_scal_l. apply Sum_ext. intros j _. ring.
Qed.

(** Logarithm of a product along a list. *)
Fixpoint pairs_of (x : list nat) : list (nat * nat) := match x with i :: ((j :: _) as r) => (i, j) :: pairs_of r | _ => [] end.
Lemma along_pos A x : (forall i j, In (i, j) (pairs_of x) -> 0 < A i j) -> 0 < along A x.
Proof.
  induction x as [|i [|j r] IH]; intros H; [cbn; lra|cbn; lra|]. change (0 < A i j * along A (j :: r)). apply Rmult_lt_0_compat; [apply H; left; reflexivity|].
  apply IH. intros a b I. apply H. right. exact I.
Qed.
Lemma along_nonzero A x : along A x <> 0 -> forall i j, In (i, j) (pairs_of x) -> A i j <> 0.
Proof.
  induction x as [|i [|j r] IH]; intros H a b I; [destruct I|destruct I|]. change (A i j * along A (j :: r) <> 0) in H.
  destruct I as [[= <- <-]|I]; [intros Z; apply H; rewrite Z; ring|]. apply IH; [|exact I]. intros Z. apply H. rewrite Z. ring.
Qed.
Lemma along_ln A x : (forall i j, In (i, j) (pairs_of x) -> 0 < A i j) -> ln (along A x) = salong (fun i j => ln (A i j)) x.
Proof.
  induction x as [|i [|j r] IH]; intros H; [apply ln_1|apply ln_1|]. change (ln (A i j * along A (j :: r)) = ln (A i j) + salong (fun i j => ln (A i j)) (j :: r)).
  rewrite ln_mult; [rewrite IH; [reflexivity|]|apply H; left; reflexivity|apply along_pos]; intros a b I; apply H; right; exact I.
Qed.
Lemma pairs_seq (g : nat -> nat) k : forall a, pairs_of (map g (seq a (S k))) = map (fun p => (g p, g (S p))) (seq a k).
Proof.
  induction k as [|k IH]; intros a; [reflexivity|]. specialize (IH (S a)).
  change (seq a (S (S k))) with (a :: S a :: seq (S (S a)) k). change (seq a (S k)) with (a :: seq (S a) k). cbn [map]. rewrite <- IH. reflexivity.
Qed.
Lemma pairs_states f t i j : In (i, j) (pairs_of (states_of f t)) <-> exists p, (1 <= p)%nat /\ (S p <= length t)%nat /\ f (firstn p t) = i /\ f (firstn (S p) t) = j.
Proof.
  unfold states_of. destruct t as [|o t]; [cbn; split; [intros []|intros (p & H); lia]|]. change (length (o :: t)) with (S (length t)).
  rewrite (pairs_seq (fun p => f (firstn p (o :: t)))), in_map_iff. split.
  - intros (p & [= <- <-] & I). apply in_seq in I. exists p. repeat split; lia.
  - intros (p & L1 & L2 & <- & <-). exists p. split; [reflexivity|]. apply in_seq. lia.
Qed.

Lemma follows_nth n lab (A0 : nat -> nat -> R) : forall x t, x <> [] -> length x = length t ->
  (forall i, (i < length t)%nat -> (nth i x O < n)%nat /\ nth (nth i x O) lab EmptyString = nth i t EmptyString) ->
  (forall i, (S i < length t)%nat -> A0 (nth i x O) (nth (S i) x O) <> 0) -> follows n lab A0 x t.
Proof.
  induction x as [|i [|j r] IH]; intros t NE L H1 H2; [congruence| |].
  - destruct t as [|o [|]]; try discriminate. apply (H1 O). cbn; lia.
  - destruct t as [|o t]; try discriminate. pose proof (H1 O ltac:(cbn; lia)) as [P Q]. split; [exact P|]. split; [exact Q|].
    cbn [length] in L. split; [apply (H2 O); cbn in *; lia|]. apply IH; [discriminate|cbn in *; lia| |].
    + intros k Lk. apply (H1 (S k)). cbn; lia.
    + intros k Lk. apply (H2 (S k)). cbn; lia.
Qed.
Lemma states_length f t : length (states_of f t) = length t.
Proof. unfold states_of. rewrite map_length, seq_length. reflexivity. Qed.
Lemma states_nth f t i : (i < length t)%nat -> nth i (states_of f t) O = f (firstn (S i) t).
Proof.
  intros L. unfold states_of. rewrite (nth_indep _ O (f (firstn 0 t))) by (rewrite map_length, seq_length; exact L).
  rewrite (map_nth (fun p => f (firstn p t))), seq_nth by exact L. reflexivity.
Qed.
Lemma firstn_next (t : list string) i : (i < length t)%nat -> firstn (S i) t = firstn i t ++ [nth i t EmptyString].
Proof. revert i. induction t as [|a t IH]; intros i L; [cbn in L; lia|]. destruct i as [|i]; [reflexivity|]. cbn [firstn nth app]. f_equal. apply IH. cbn in L; lia. Qed.

(** The learned chain. *)
Definition learned (T : list (list string * Z)) (m : mc R) (f : list string -> nat) : Prop :=
  wf_mc m /\ stochastic01 (mc_mat m) /\ quotient T m f /\ (forall i, (i < mc_n m)%nat -> vecR (mc_ini m) i = if (i =? 0)%nat then 1 else 0) /\
  (forall t k, In (t, k) T -> (1 <= k)%Z /\ exists u, t = "init"%string :: u).
Lemma fit_learned (s : tset (list string)) (alpha : R) fuel name T :
  0 < alpha <= 2 -> usable s -> readings s T -> (1 + total_length s <= fuel)%nat ->
  exists m f, fst (alergia_fit trace_eqb trace_leb fuel s alpha false name) = Some (Ok m) /\ learned T m f.
Proof.
  intros Ha U Rd Fu. destruct (C56_valid_chain s alpha fuel name T Ha U Rd Fu) as (m0 & E0 & _ & _ & _ & _ & _ & I0).
  destruct (fit_any s alpha fuel name T U Fu Rd) as (m & f & E & Nm & W & St & Ui & Q). assert (m0 = m) as -> by congruence.
  exists m, f. split; [exact E|]. split; [exact W|]. split; [exact St|]. split; [exact Q|]. split; [intros i Li; apply (I0 i Li)|].
  intros t k J. split; [apply (readings_pos s T t k U Rd J)|]. destruct (readings_start s T t k Rd J) as (u & -> & _). eauto.
Qed.

Section Learned.
  Variables (T : list (list string * Z)) (m : mc R) (f : list string -> nat).
  Hypothesis L : learned T m f.
  Notation n := (mc_n m).
  Notation A := (matR (mc_mat m)).
  Lemma l_nonempty t k : In (t, k) T -> t <> [].
  Proof. intros J. destruct L as (_ & _ & _ & _ & H). destruct (H t k J) as (_ & u & ->). discriminate. Qed.
  Lemma l_state t k p : In (t, k) T -> (p < length t)%nat -> (f (firstn (S p) t) < n)%nat /\ nth (f (firstn (S p) t)) (mc_lab m) EmptyString = nth p t EmptyString.
  Proof.
    intros J Lp. destruct L as (_ & _ & Q & _). rewrite (firstn_next t p Lp). apply (q_label _ _ _ Q t k _ _ J). rewrite <- (firstn_next t p Lp).
    apply starts_spec. exists (skipn (S p) t). symmetry. apply firstn_skipn.
  Qed.
  Lemma l_pos t k p : In (t, k) T -> (1 <= p)%nat -> (S p <= length t)%nat -> 0 < A (f (firstn p t)) (f (firstn (S p) t)).
  Proof. intros J L1 L2. destruct L as (_ & _ & Q & _ & H). apply (quotient_step T f m t k p Q J (fun t k J => proj1 (H t k J)) L1 L2). Qed.
  Lemma l_follows t k : In (t, k) T -> follows n (mc_lab m) A (states_of f t) t.
  Proof.
    intros J. apply follows_nth.
    - intros E. apply (f_equal (@length nat)) in E. rewrite states_length in E. apply (l_nonempty t k J). destruct t; [reflexivity|discriminate].
    - apply states_length.
    - intros i Li. rewrite states_nth by exact Li. apply (l_state t k i J Li).
    - intros i Li. rewrite !states_nth by lia. apply Rgt_not_eq, (l_pos t k (S i) J); lia.
  Qed.
  Lemma l_nonneg i j : 0 <= A i j.
  Proof. destruct L as (_ & (N & _) & _). apply matR_nonneg, N. Qed.
  Lemma l_det i j k : (i < n)%nat -> (j < n)%nat -> (k < n)%nat -> A i j <> 0 -> A i k <> 0 ->
    nth j (mc_lab m) EmptyString = nth k (mc_lab m) EmptyString -> j = k.
  Proof.
    intros Li Lj Lk N1 N2 E. destruct L as (_ & _ & Q & _). apply (q_det _ _ _ Q i j k Li Lj Lk); [| |exact E].
    - destruct (Rle_lt_or_eq_dec _ _ (l_nonneg i j)); [assumption|congruence].
    - destruct (Rle_lt_or_eq_dec _ _ (l_nonneg i k)); [assumption|congruence].
  Qed.
  Lemma l_prob m' t k : within m m' -> In (t, k) T -> mc_trace_prob m' t = along (matR (mc_mat m')) (states_of f t).
  Proof.
    intros (En & El & Ei & Sp) J. unfold mc_trace_prob. rewrite En, El, Ei. pose proof (l_nonempty t k J) as NE.
    rewrite (trace_prob_hB n (is_label (mc_lab m))) by (rewrite repeat_length; destruct t; [congruence|cbn; lia]).
    rewrite <- (det_value n (mc_lab m) A l_det (matR (mc_mat m')) (states_of f t) Sp t (l_follows t k J)).
    assert (H0 : hd O (states_of f t) = O).
    { destruct L as (_ & _ & Q & _ & H). destruct (H t k J) as (_ & u & ->). cbn. apply (q_start _ _ _ Q). }
    rewrite H0. destruct L as (_ & _ & Q & I & _).
    rewrite (Sum_ext n _ (fun s => if Nat.eqb s 0 then hB n (is_label (mc_lab m)) (repeat (matR (mc_mat m')) (length t - 1)) t s else 0)).
    - apply (Sum_indicator_in n O (fun s => hB n (is_label (mc_lab m)) (repeat (matR (mc_mat m')) (length t - 1)) t s)). apply (q_start _ _ _ Q).
    - intros s Hs. rewrite (I s Hs). destruct (s =? 0)%nat; ring.
  Qed.
  Lemma within_refl : within m m. Proof. repeat split; auto. Qed.
  Lemma l_ll m' : within m m' -> (forall i j, 0 <= matR (mc_mat m') i j) -> (forall t k, In (t, k) T -> 0 < mc_trace_prob m' t) ->
    set_ll (mc_trace_prob m') T = Sum n (fun i => Sum n (fun j => IZR (visits f T i j) * ln (matR (mc_mat m') i j))).
  Proof.
    intros Wi Nn Pp. rewrite <- (salong_set n (fun i j => ln (matR (mc_mat m') i j)) f T).
    - unfold set_ll. apply sumL_ext. intros [t k] J. cbn [fst snd]. destruct (Rlt_dec _ _) as [_|NP]; [|exfalso; apply NP, (Pp t k J)].
      f_equal. specialize (Pp t k J). rewrite (l_prob m' t k Wi J) in *. apply along_ln. intros i j I.
      destruct (Rle_lt_or_eq_dec _ _ (Nn i j)) as [|E]; [assumption|]. exfalso. apply (along_nonzero _ _ (Rgt_not_eq _ _ Pp) i j I). symmetry. exact E.
    - intros t k J. split; [apply (l_nonempty t k J)|]. intros p Lp. destruct p as [|p]; [lia|]. apply (l_state t k p J). lia.
  Qed.
  Lemma visits_pos_inv i j : (0 < visits f T i j)%Z -> exists t k, In (t, k) T /\ In (i, j) (pairs_of (states_of f t)).
  Proof.
    intros V. unfold visits in V. apply (zs_pos_inv T (fun tm => (snd tm * Z.of_nat (moves f (fst tm) i j))%Z)) in V as ([t k] & J & P). exists t, k. split; [exact J|].
    cbn [fst snd] in P. unfold moves in P. destruct (filter _ _) as [|p l] eqn:E; [cbn in P; lia|].
    assert (I : In p (p :: l)) by (left; reflexivity). rewrite <- E in I. apply filter_In in I as [I B]. apply in_seq in I. apply andb_true_iff in B as [B1 B2].
    apply Nat.eqb_eq in B1, B2. apply pairs_states. exists p. repeat split; auto; lia.
  Qed.
  Lemma visits_nonneg i j : (0 <= visits f T i j)%Z.
  Proof. apply (zs_nonneg T (fun tm => (snd tm * Z.of_nat (moves f (fst tm) i j))%Z)). intros [t k] J. cbn [fst snd]. destruct L as (_ & _ & _ & _ & H). destruct (H t k J) as [P _]. lia. Qed.
  Lemma visits_from_nonneg i : (0 <= visits_from f T n i)%Z.
  Proof. apply (zs_nonneg (seq 0 n) (visits f T i)). intros j _. apply visits_nonneg. Qed.
  Lemma l_row i : (i < n)%nat -> (exists k, (k < n)%nat /\ A i k <> 0) <-> (visits_from f T n i <> 0)%Z.
  Proof.
    intros Li. destruct L as (_ & _ & Q & _). split.
    - intros (k & Lk & Nz) Z. apply Nz, (q_freq _ _ _ Q i k Li Lk), Z.
    - intros Nz. assert (P : (0 < visits_from f T n i)%Z) by (pose proof (visits_from_nonneg i); lia).
      apply (zs_pos_inv (seq 0 n) (visits f T i)) in P as (k & I & P). apply in_seq in I. exists k. split; [lia|].
      rewrite (proj2 (q_freq _ _ _ Q i k Li ltac:(lia)) Nz). apply Rgt_not_eq. apply Rdiv_lt_0_compat; apply IZR_lt; [exact P|]. pose proof (visits_from_nonneg i); lia.
  Qed.
  Lemma l_prob_pos t k : In (t, k) T -> 0 < mc_trace_prob m t.
  Proof.
    intros J. rewrite (l_prob m t k within_refl J). apply along_pos. intros i j I. apply pairs_states in I as (p & L1 & L2 & <- & <-). apply (l_pos t k p J L1 L2).
  Qed.
  Lemma l_best m' : wf_mc m' -> substochastic (mc_mat m') -> within m m' -> (forall t k, In (t, k) T -> 0 < mc_trace_prob m' t) ->
    set_ll (mc_trace_prob m') T <= set_ll (mc_trace_prob m) T /\
    (set_ll (mc_trace_prob m') T = set_ll (mc_trace_prob m) T <->
     forall i j, (i < n)%nat -> (j < n)%nat -> (exists k, (k < n)%nat /\ A i k <> 0) -> matR (mc_mat m') i j = A i j).
  Proof.
    intros W' [Nn S1] Wi Pp. set (A' := matR (mc_mat m')).
    assert (N' : forall i j, 0 <= A' i j) by (intros; apply matR_nonneg, Nn).
    rewrite (l_ll m' Wi N' Pp), (l_ll m within_refl l_nonneg l_prob_pos). fold A'.
    set (g := fun i => Sum n (fun j => IZR (visits f T i j) * ln (A i j)) - Sum n (fun j => IZR (visits f T i j) * ln (A' i j))).
    assert (V0 : forall i j, visits_from f T n i = 0%Z -> (j < n)%nat -> IZR (visits f T i j) = 0).
    { intros i j Z Lj. apply (f_equal IZR) in Z. rewrite visits_from_sum in Z. unfold Sum in Z.
      apply (sumL_eq0 (seq 0 n) (fun j => IZR (visits f T i j))); [intros; apply IZR_le, visits_nonneg|exact Z|apply in_seq; lia]. }
    assert (G : forall i, (i < n)%nat -> 0 <= g i /\ (g i = 0 <-> ((exists k, (k < n)%nat /\ A i k <> 0) -> forall j, (j < n)%nat -> A' i j = A i j))).
    { intros i Li. destruct (Z.eq_dec (visits_from f T n i) 0) as [Z|Nz].
      - assert (g i = 0) as E.
        { unfold g. rewrite !Sum_zero_ext; [ring| |]; intros j Hj; rewrite (V0 i j Z Hj); ring. }
        rewrite E. split; [lra|]. split; [|auto]. intros _ X. exfalso. apply (proj1 (l_row i Li)) in X. exact (X Z).
      - assert (P : 0 < IZR (visits_from f T n i)) by (apply IZR_lt; pose proof (visits_from_nonneg i); lia).
        assert (Q := proj1 (proj2 (proj2 L))).
        assert (EA : forall j, (j < n)%nat -> IZR (visits f T i j) = IZR (visits_from f T n i) * A i j).
        { intros j Hj. rewrite (proj2 (q_freq _ _ _ Q i j Li Hj) Nz). field. lra. }
        assert (ES : forall B : nat -> nat -> R, Sum n (fun j => IZR (visits f T i j) * ln (B i j)) = IZR (visits_from f T n i) * sumL (seq 0 n) (fun j => A i j * ln (B i j))).
        { intros B. change (sumL (seq 0 n)) with (Sum n). rewrite <- Sum_scal_l. apply Sum_ext. intros j Hj. rewrite (EA j Hj). ring. }
        assert (Gb := gibbs (seq 0 n) (A i) (A' i)). destruct Gb as [G1 G2].
        + intros j _. apply l_nonneg.
        + intros j _. apply N'.
        + intros j I PA. apply in_seq in I. assert (PV : (0 < visits f T i j)%Z).
          { apply lt_IZR. rewrite (EA j) by lia. apply Rmult_lt_0_compat; assumption. }
          destruct (visits_pos_inv i j PV) as (t & k & J & I'). specialize (Pp t k J). rewrite (l_prob m' t k Wi J) in Pp.
          pose proof (along_nonzero _ _ (Rgt_not_eq _ _ Pp) i j I') as X. fold A' in X. destruct (Rle_lt_or_eq_dec _ _ (N' i j)); [assumption|congruence].
        + apply (Rmult_eq_reg_l (IZR (visits_from f T n i))); [|lra]. rewrite Rmult_1_r. rewrite <- sumL_scal_l. transitivity (sumL (seq 0 n) (fun j => IZR (visits f T i j))); [|symmetry; apply visits_from_sum].
          apply sumL_ext. intros j I. apply in_seq in I. symmetry. apply EA. lia.
        + destruct Wi as (En & _). assert (I : In (nth i (mc_mat m') []) (mc_mat m')) by (apply nth_In; fold (mc_n m'); lia).
          pose proof (S1 _ I) as X. rewrite rsum_nth in X. destruct W' as [[_ Lr] _]. rewrite (Lr _ I), En in X. exact X.
        + unfold g. rewrite !ES. split.
          * apply Rge_le, Rge_minus, Rle_ge, Rmult_le_compat_l; [lra|exact G1].
          * split.
            -- intros E _ j Hj. apply (proj1 G2); [|apply in_seq; lia]. apply (Rmult_eq_reg_l (IZR (visits_from f T n i))); lra.
            -- intros H. assert (Ex : exists k, (k < n)%nat /\ A i k <> 0) by (apply (l_row i Li), Nz). rewrite (proj2 G2); [ring|]. intros j I. apply in_seq in I. apply (H Ex). lia. }
    assert (D : Sum n (fun i => Sum n (fun j => IZR (visits f T i j) * ln (A i j))) - Sum n (fun i => Sum n (fun j => IZR (visits f T i j) * ln (A' i j))) = Sum n g).
    { unfold Sum at 1 3. rewrite <- sumL_minus. reflexivity. }
    assert (Gn : forall i, In i (seq 0 n) -> 0 <= g i) by (intros i I; apply in_seq in I; apply G; lia).
    assert (P := sumL_nonneg _ _ Gn). change (sumL (seq 0 n) g) with (Sum n g) in P. split; [lra|]. split.
    - intros E i j Li Lj Ex. apply (proj1 (proj2 (G i Li))); [|exact Ex|exact Lj]. apply (sumL_eq0 (seq 0 n) g Gn); [change (Sum n g = 0); lra|apply in_seq; lia].
    - intros H. assert (Z : Sum n g = 0); [|lra]. apply Sum_zero_ext. intros i Li. apply (proj2 (G i Li)). intros Ex j Lj. apply (H i j Li Lj Ex).
  Qed.
End Learned.

(** *** When no two prefixes share a state *)
Lemma trace_eqb_spec a b : reflect (a = b) (trace_eqb a b).
Proof. apply iff_reflect. symmetry. apply (lex_eqb_decides _ string_eqb_decides). Qed.
Lemma along_ratio A (g : nat -> nat) (c : nat -> R) k : forall a, (forall p, (a <= p <= a + k)%nat -> c p <> 0) ->
  (forall p, (a <= p < a + k)%nat -> A (g p) (g (S p)) = c (S p) / c p) -> along A (map g (seq a (S k))) = c (a + k)%nat / c a.
Proof.
  induction k as [|k IH]; intros a Nz E; [cbn; rewrite Nat.add_0_r; field; apply Nz; lia|].
  change (along A (map g (seq a (S (S k))))) with (A (g a) (g (S a)) * along A (map g (seq (S a) (S k)))). rewrite (E a) by lia. rewrite (IH (S a)).
  - replace (S a + k)%nat with (a + S k)%nat by lia. field. split; apply Nz; lia.
  - intros p H. apply Nz. lia.
  - intros p H. apply E. lia.
Qed.
Lemma NoDup_map_inj {X Y} (h : X -> Y) l : NoDup (map h l) -> forall a b, In a l -> In b l -> h a = h b -> a = b.
Proof.
  induction l as [|x l IH]; intros N a b Ia Ib E; [destruct Ia|]. inversion N as [|? ? NI N']; subst.
  destruct Ia as [->|Ia], Ib as [->|Ib]; [reflexivity| | |apply IH; assumption].
  - exfalso. apply NI. rewrite E. apply in_map, Ib.
  - exfalso. apply NI. rewrite <- E. apply in_map, Ia.
Qed.
Lemma pcount_sum T w : IZR (pcount T w) = sumL T (fun tm => IZR (snd tm) * (if starts w (fst tm) then 1 else 0)).
Proof. unfold pcount. induction T as [|tm T IH]; [reflexivity|]. cbn [fold_right]. rewrite plus_IZR, IH, sumL_cons. destruct (starts w (fst tm)); ring. Qed.
Lemma firstn_starts (t : list string) p : starts (firstn p t) t = true.
Proof. apply starts_spec. exists (skipn p t). symmetry. apply firstn_skipn. Qed.

Section Unmerged.
  Variables (T : list (list string * Z)) (m : mc R) (f : list string -> nat) (W : list (list string)) (len : nat).
  Hypothesis L : learned T m f.
  Hypothesis NW : NoDup W.
  Hypothesis HW : forall w, In w W <-> prefix_of T w.
  Hypothesis Sz : mc_n m = length W.
  Hypothesis NT : NoDup (map fst T).
  Hypothesis Ln : forall t k, In (t, k) T -> length t = len.
  Lemma u_prefix t k p : In (t, k) T -> (1 <= p <= length t)%nat -> In (firstn p t) W.
  Proof.
    intros J H. apply HW. exists t, k. split; [exact J|]. split; [|apply firstn_starts]. intros E. apply (f_equal (@length string)) in E.
    rewrite firstn_length in E. cbn in E. lia.
  Qed.
  Lemma u_inj a b : In a W -> In b W -> f a = f b -> a = b.
  Proof.
    apply NoDup_map_inj. apply (@NoDup_incl_NoDup _ (seq 0 (mc_n m))); [apply seq_NoDup|rewrite map_length, seq_length; lia|].
    intros i I. apply in_seq in I. destruct L as (_ & _ & Q & _ & H). destruct (q_onto _ _ _ Q i ltac:(lia)) as [->|(t & k & w & J & NE & S & <-)].
    - assert (PW : (0 < length W)%nat) by (pose proof (proj1 (proj2 (q_start _ _ _ Q))); lia). destruct W as [|w0 W'] eqn:EW; [cbn in PW; lia|].
      destruct (proj1 (HW w0) (or_introl eq_refl)) as (t & k & J & _). destruct (H t k J) as (_ & u & ->).
      rewrite <- (proj1 (q_start _ _ _ Q)). apply in_map. apply HW. exists ("init"%string :: u), k. split; [exact J|]. split; [discriminate|]. cbn. reflexivity.
    - apply in_map. apply HW. exists t, k. auto.
  Qed.
  Lemma u_eq t k t' k' p q : In (t, k) T -> In (t', k') T -> (1 <= p <= length t)%nat -> (1 <= q <= length t')%nat ->
    (f (firstn q t') =? f (firstn p t))%nat = (q =? p)%nat && starts (firstn p t) t'.
  Proof.
    intros J J' Lp Lq. destruct (Nat.eqb_spec (f (firstn q t')) (f (firstn p t))) as [E|NE].
    - apply u_inj in E; [|apply (u_prefix t' k'); assumption|apply (u_prefix t k); assumption].
      assert (q = p) by (apply (f_equal (@length string)) in E; rewrite !firstn_length in E; lia). rewrite <- E. subst q.
      rewrite Nat.eqb_refl, firstn_starts. reflexivity.
    - symmetry. apply andb_false_iff. destruct (Nat.eqb_spec q p) as [->|]; [right|left; reflexivity].
      destruct (starts (firstn p t) t') eqn:S; [|reflexivity]. exfalso. apply NE. apply starts_firstn in S as [S _]. rewrite firstn_length, Nat.min_l in S by lia. congruence.
  Qed.
  Lemma u_visits t k p : In (t, k) T -> (1 <= p)%nat -> (S p <= length t)%nat -> IZR (visits f T (f (firstn p t)) (f (firstn (S p) t))) = IZR (pcount T (firstn (S p) t)).
  Proof.
    intros J L1 L2. rewrite visits_sum, pcount_sum. apply sumL_ext. intros [t' k'] J'. cbn [fst snd]. f_equal. unfold moves. rewrite count_sum.
    rewrite (sumL_ext _ _ (fun q => if Nat.eqb q p then if starts (firstn (S p) t) t' then 1 else 0 else 0)).
    - rewrite <- (sumL_filter (seq 1 (length t' - 1)) (fun _ => if starts (firstn (S p) t) t' then 1 else 0) (fun q => Nat.eqb q p)).
      assert (E : filter (fun q => Nat.eqb q p) (seq 1 (length t' - 1)) = [p]).
      { assert (Lt : (p < 1 + (length t' - 1))%nat) by (rewrite (Ln t' k' J'), <- (Ln t k J); lia).
        replace (length t' - 1)%nat with ((p - 1) + S (length t' - 1 - p))%nat by lia. rewrite seq_app, filter_app. replace (1 + (p - 1))%nat with p by lia. cbn [seq filter]. rewrite Nat.eqb_refl.
        assert (F0 : forall a c, ~ (a <= p < a + c)%nat -> filter (fun q => Nat.eqb q p) (seq a c) = []).
        { intros a c. revert a. induction c as [|c IH]; intros a H; [reflexivity|]. cbn [seq filter]. destruct (Nat.eqb_spec a p); [lia|]. apply IH. lia. }
        rewrite !F0 by lia. reflexivity. }
      rewrite E. unfold sumL. cbn. ring.
    - intros q I. apply in_seq in I. rewrite (u_eq t k t' k' p q), (u_eq t k t' k' (S p) (S q)) by (auto; lia).
      change (S q =? S p)%nat with (q =? p)%nat. destruct (q =? p)%nat; cbn [andb]; [|reflexivity].
      destruct (starts (firstn (S p) t) t') eqn:S2; [|rewrite andb_false_r; reflexivity].
      rewrite (starts_trans (firstn p t) (firstn (S p) t) t'); [reflexivity| |exact S2].
      replace (firstn p t) with (firstn p (firstn (S p) t)) by (rewrite firstn_firstn; f_equal; lia). apply firstn_starts.
  Qed.
  Lemma u_from t k p : In (t, k) T -> (1 <= p)%nat -> (S p <= length t)%nat -> IZR (visits_from f T (mc_n m) (f (firstn p t))) = IZR (pcount T (firstn p t)).
  Proof.
    intros J L1 L2. rewrite visits_from_sum, pcount_sum. rewrite (Sum_ext _ _ (fun j => sumL T (fun tm => IZR (snd tm) * IZR (Z.of_nat (moves f (fst tm) (f (firstn p t)) j))))) by (intros; apply visits_sum).
    unfold Sum. rewrite sumL_swap. apply sumL_ext. intros [t' k'] J'. cbn [fst snd]. rewrite sumL_scal_l. f_equal.
    rewrite (sumL_ext _ _ (fun j => sumL (seq 1 (length t' - 1)) (fun q => if (f (firstn q t') =? f (firstn p t))%nat && (f (firstn (S q) t') =? j)%nat then 1 else 0)))
      by (intros j _; unfold moves; apply count_sum).
    rewrite sumL_swap.
    rewrite (sumL_ext _ _ (fun q => if Nat.eqb q p then if starts (firstn p t) t' then 1 else 0 else 0)).
    - rewrite <- (sumL_filter (seq 1 (length t' - 1)) (fun _ => if starts (firstn p t) t' then 1 else 0) (fun q => Nat.eqb q p)).
      assert (E : filter (fun q => Nat.eqb q p) (seq 1 (length t' - 1)) = [p]).
      { assert (Lt : (p < 1 + (length t' - 1))%nat) by (rewrite (Ln t' k' J'), <- (Ln t k J); lia).
        replace (length t' - 1)%nat with ((p - 1) + S (length t' - 1 - p))%nat by lia. rewrite seq_app, filter_app. replace (1 + (p - 1))%nat with p by lia. cbn [seq filter]. rewrite Nat.eqb_refl.
        assert (F0 : forall a c, ~ (a <= p < a + c)%nat -> filter (fun q => Nat.eqb q p) (seq a c) = []).
        { intros a c. revert a. induction c as [|c IH]; intros a H; [reflexivity|]. cbn [seq filter]. destruct (Nat.eqb_spec a p); [lia|]. apply IH. lia. }
        rewrite !F0 by lia. reflexivity. }
      rewrite E. unfold sumL. cbn. ring.
    - intros q I. apply in_seq in I. rewrite (u_eq t k t' k' p q) by (auto; lia).
      assert (Lf : (f (firstn (S q) t') < mc_n m)%nat) by (apply (l_state T m f L t' k' q J'); lia).
      destruct (q =? p)%nat; cbn [andb]; [|apply sumL_zero_ext; reflexivity].
      destruct (starts (firstn p t) t'); cbn [andb]; [|apply sumL_zero_ext; reflexivity].
      rewrite (sumL_ext _ _ (fun j => if Nat.eqb j (f (firstn (S q) t')) then 1 else 0)) by (intros j _; rewrite Nat.eqb_sym; reflexivity).
      apply (Sum_indicator_in (mc_n m) (f (firstn (S q) t')) (fun _ => 1) Lf).
  Qed.
  Lemma u_prob t k : In (t, k) T -> mc_trace_prob m t = IZR k / IZR (zsum (map snd T)).
  Proof.
    intros J. rewrite (l_prob T m f L m t k (within_refl m) J). pose proof (l_nonempty T m f L t k J) as NE.
    assert (Lt : (1 <= length t)%nat) by (destruct t; [congruence|cbn; lia]).
    assert (Pp : forall p, IZR (pcount T (firstn p t)) <> 0).
    { intros p. apply not_0_IZR. enough (0 < pcount T (firstn p t))%Z by lia. unfold pcount.
      apply (zs_pos T (fun tm => if starts (firstn p t) (fst tm) then snd tm else 0%Z) (t, k)); [| exact J|cbn [fst snd]; rewrite firstn_starts].
      - intros [t' k'] J'. cbn [fst snd]. destruct L as (_ & _ & _ & _ & H). destruct (H t' k' J') as [P _]. destruct (starts _ _); lia.
      - destruct L as (_ & _ & _ & _ & H). destruct (H t k J) as [P _]. lia. }
    unfold states_of. replace (length t) with (S (length t - 1)) at 1 by lia.
    rewrite (along_ratio _ (fun p => f (firstn p t)) (fun p => IZR (pcount T (firstn p t)))).
    - replace (1 + (length t - 1))%nat with (length t) by lia. rewrite firstn_all. f_equal; [|f_equal].
      + rewrite pcount_sum. rewrite (sumL_ext T _ (fun tm => if trace_eqb (fst tm) t then IZR k else 0)).
        * clear - NT J. revert NT J. induction T as [|[a b] l IH]; intros N I; [destruct I|]. rewrite sumL_cons. inversion N as [|? ? NI N']; subst. cbn [fst].
          destruct I as [[= -> ->]|I].
          -- destruct (trace_eqb_spec t t) as [_|]; [|congruence]. rewrite sumL_zero_ext; [ring|]. intros [a' b'] I. cbn. destruct (trace_eqb_spec a' t) as [->|]; [|reflexivity].
             exfalso. apply NI. apply (in_map fst) in I. exact I.
          -- destruct (trace_eqb_spec a t) as [->|]; [exfalso; apply NI; apply (in_map fst) in I; exact I|]. rewrite (IH N' I). ring.
        * intros [t' k'] J'. cbn [fst snd].
          destruct (trace_eqb_spec t' t) as [->|NEt].
          -- rewrite starts_refl.
             assert (k' = k) as ->; [|ring].
             assert (X : forall l : list (list string * Z), NoDup (map fst l) -> In (t, k) l -> In (t, k') l -> k' = k).
             { induction l as [|[a b] l IH]; intros N I1 I2; [destruct I1|]. inversion N as [|? ? NI N']; subst.
               destruct I1 as [[= -> ->]|I1], I2 as [E2|I2]; [congruence|exfalso; apply NI; apply (in_map fst) in I2; exact I2|injection E2 as -> ->; exfalso; apply NI; apply (in_map fst) in I1; exact I1|apply IH; assumption]. }
             apply (X T NT J J').
          -- destruct (starts t t') eqn:S; [|ring]. exfalso. apply NEt. apply starts_firstn in S as [S _].
             rewrite S, (Ln t k J), <- (Ln t' k' J'), firstn_all. reflexivity.
      + f_equal. assert (X : forall l : list (list string * Z), (forall t' k', In (t', k') l -> starts (firstn 1 t) t' = true) -> pcount l (firstn 1 t) = zsum (map snd l)).
        { induction l as [|[a b] l IH]; intros H; [reflexivity|]. change (((if starts (firstn 1 t) a then b else 0) + pcount l (firstn 1 t))%Z = (b + zsum (map snd l))%Z).
          rewrite (H a b (or_introl eq_refl)), IH by (intros; eapply H; right; eassumption). reflexivity. }
        apply X. intros t' k' J'. destruct L as (_ & _ & _ & _ & H). destruct (H t k J) as (_ & u & ->), (H t' k' J') as (_ & u' & ->). reflexivity.
    - intros p _. apply Pp.
    - intros p Lp. assert (Q := proj1 (proj2 (proj2 L))).
      destruct (l_state T m f L t k (p - 1) J) as [Li _]; [lia|]. replace (S (p - 1)) with p in Li by lia.
      destruct (l_state T m f L t k p J) as [Lj _]; [lia|].
      rewrite (proj2 (q_freq _ _ _ Q _ _ Li Lj)).
      + rewrite (u_visits t k p J), (u_from t k p J) by lia. reflexivity.
      + intros Z. apply (Pp p). rewrite <- (u_from t k p J) by lia. rewrite Z. reflexivity.
  Qed.
End Unmerged.

(** *** Theorems *)

(** Along a training trace, the learned chain, and any chain with transitions only where it
    has some, follows one path: the probability of the trace is the product along it. *)
Theorem C159_trace_probability : forall (s : tset (list string)) (alpha : R) fuel name T,
  0 < alpha <= 2 -> usable s -> readings s T -> (1 + total_length s <= fuel)%nat ->
  exists m f, fst (alergia_fit trace_eqb trace_leb fuel s alpha false name) = Some (Ok m) /\ quotient T m f /\
    forall m', within m m' -> forall t k, In (t, k) T -> mc_trace_prob m' t = along (matR (mc_mat m')) (states_of f t).
Proof.
  intros s alpha fuel name T Ha U Rd Fu. destruct (fit_learned s alpha fuel name T Ha U Rd Fu) as (m & f & E & L). exists m, f. split; [exact E|]. split; [apply L|].
  intros m' Wi t k J. apply (l_prob T m f L m' t k Wi J).
Qed.
Print Assumptions C159_trace_probability.

(** The set of the traces as the learned chain reads them. *)
Definition set_of (T : list (list string * Z)) : tset (list string) := mkset (map fst T) (map snd T) None.
Lemma set_of_weighted T : weighted (set_of T) = T.
Proof. unfold weighted, set_of. cbn [seqs times]. induction T as [|[a b] T IH]; [reflexivity|]. cbn [map combine fst snd]. rewrite IH. reflexivity. Qed.
Lemma set_of_usable T m f : learned T m f -> PLik.usable (set_of T).
Proof.
  intros L. split; [cbn; rewrite !map_length; reflexivity|]. split.
  - intros k I. cbn in I. apply in_map_iff in I as ([t k'] & <- & J). destruct L as (_ & _ & _ & _ & H). apply (H t k' J).
  - intros I. cbn in I. apply in_map_iff in I as ([t k'] & E & J). cbn in E. subst. exact (l_nonempty T m f L [] k' J eq_refl).
Qed.

(** No other probabilities on the same transitions give the training set a better score,
    and only those that agree on the states the traces leave give the same. *)
Theorem C159_best : forall (s : tset (list string)) (alpha : R) fuel name T,
  0 < alpha <= 2 -> usable s -> readings s T -> (1 + total_length s <= fuel)%nat -> T <> [] ->
  exists m v, fst (alergia_fit trace_eqb trace_leb fuel s alpha false name) = Some (Ok m) /\ mc_logLikelihood m (set_of T) = Ok v /\
    forall m', wf_mc m' -> substochastic (mc_mat m') -> within m m' -> (forall t k, In (t, k) T -> 0 < mc_trace_prob m' t) ->
    exists v', mc_logLikelihood m' (set_of T) = Ok v' /\ v' <= v /\
      (v' = v <-> forall i j, (i < mc_n m)%nat -> (j < mc_n m)%nat -> (exists k, (k < mc_n m)%nat /\ matR (mc_mat m) i k <> 0) ->
                  matR (mc_mat m') i j = matR (mc_mat m) i j).
Proof.
  intros s alpha fuel name T Ha U Rd Fu NT. destruct (fit_learned s alpha fuel name T Ha U Rd Fu) as (m & f & E & L). exists m, (avg_ll (mc_trace_prob m) T).
  pose proof (set_of_usable T m f L) as Us. split; [exact E|]. split; [rewrite C27_mc_logLikelihood, set_of_weighted; [reflexivity|apply L|exact Us]|].
  intros m' W' Sb Wi Pp. exists (avg_ll (mc_trace_prob m') T). split; [rewrite C27_mc_logLikelihood, set_of_weighted; [reflexivity|exact W'|exact Us]|].
  destruct (l_best T m f L m' W' Sb Wi Pp) as [Le Eq]. unfold avg_ll.
  assert (Z : 0 < IZR (zsum (map snd T))).
  { apply IZR_lt. destruct T as [|[t k] T']; [congruence|]. cbn [map zsum snd].
    assert (P : forall l : list (list string * Z), (forall t k, In (t, k) l -> (1 <= k)%Z) -> (0 <= zsum (map snd l))%Z).
    { induction l as [|[a b] l IH]; intros H; [cbn; lia|]. cbn [map zsum snd]. pose proof (H a b (or_introl eq_refl)). specialize (IH (fun t k I => H t k (or_intror I))). lia. }
    destruct L as (_ & _ & _ & _ & H). pose proof (proj1 (H t k (or_introl eq_refl))). specialize (P T' (fun t k I => proj1 (H t k (or_intror I)))). lia. }
  split; [apply Rmult_le_compat_r; [apply Rlt_le, Rinv_0_lt_compat, Z|exact Le]|]. rewrite <- Eq. split; [|intros ->; reflexivity].
  intros X. apply (Rmult_eq_reg_r (/ IZR (zsum (map snd T)))); [exact X|apply Rinv_neq_0_compat; lra].
Qed.
Print Assumptions C159_best.

(** When the learned chain has as many states as the traces have prefixes, nothing was merged: on
    traces of one length, the probability of each is its share of the set, and (C150) no model
    of the same or of another kind has a better score. *)
Theorem C159_unmerged : forall (s : tset (list string)) (alpha : R) fuel name T W len,
  0 < alpha <= 2 -> usable s -> readings s T -> (1 + total_length s <= fuel)%nat ->
  NoDup W -> (forall w, In w W <-> prefix_of T w) -> (forall t k, In (t, k) T -> length t = len) ->
  exists m, fst (alergia_fit trace_eqb trace_leb fuel s alpha false name) = Some (Ok m) /\
    (mc_n m = length W -> forall t k, In (t, k) T -> mc_trace_prob m t = IZR k / IZR (zsum (map snd T))).
Proof.
  intros s alpha fuel name T W len Ha U Rd Fu NW HW Ln. destruct (fit_learned s alpha fuel name T Ha U Rd Fu) as (m & f & E & L). exists m. split; [exact E|].
  intros Sz t k J. apply (u_prob T m f W len L NW HW Sz); [|exact Ln|exact J].
  destruct U as ((LW & ND) & _). destruct Rd as [_|_ _].
  - unfold with_init. rewrite map_map. cbn [fst].
    assert (Em : map (fun x : list string * Z => "init"%string :: fst x) (traces s) = map (cons "init"%string) (seqs s)) by (rewrite <- (map_map fst (cons "init"%string)); f_equal; apply combine_map_fst; exact LW).
    rewrite Em.
    apply FinFun.Injective_map_NoDup; [intros a b [= ->]; reflexivity|exact ND].
  - assert (Em : map fst (traces s) = seqs s) by (apply combine_map_fst; exact LW). rewrite Em. exact ND.
Qed.
Print Assumptions C159_unmerged.

(** ** Instances *)
(** Three traces with different symbols at every prefix: nothing can be merged. *)
Definition tree : tset (list string) := mkset [["a"; "b"]; ["a"; "c"]; ["d"; "e"]]%string [3; 1; 4]%Z (Some 0%Z).
Definition tree_prefixes : list (list string) :=
  [["init"]; ["init"; "a"]; ["init"; "a"; "b"]; ["init"; "a"; "c"]; ["init"; "d"]; ["init"; "d"; "e"]]%string.
Lemma tree_usable : usable tree.
Proof.
  split; [split; [reflexivity|]|split].
  - repeat constructor; cbn; intuition discriminate.
  - intros t I. cbn in I. intuition lia.
  - intros t [<-|[<-|[<-|[]]]]; cbn; intuition discriminate.
Qed.
Lemma tree_readings : readings tree (with_init (traces tree)).
Proof. apply read_plain. intros t [<-|[<-|[<-|[]]]]; cbn; intuition discriminate. Qed.
Lemma tree_prefixes_ok w : In w tree_prefixes <-> prefix_of (with_init (traces tree)) w.
Proof.
  split.
  - intros I. cbn in I.
    assert (X : forall t k, In (t, k) (with_init (traces tree)) -> starts w t = true -> w <> [] -> prefix_of (with_init (traces tree)) w) by (intros t k J S N; exists t, k; auto).
    destruct I as [<-|[<-|[<-|[<-|[<-|[<-|[]]]]]]].
    + eapply X; [left; reflexivity|reflexivity|discriminate].
    + eapply X; [left; reflexivity|reflexivity|discriminate].
    + eapply X; [left; reflexivity|reflexivity|discriminate].
    + eapply X; [right; left; reflexivity|reflexivity|discriminate].
    + eapply X; [right; right; left; reflexivity|reflexivity|discriminate].
    + eapply X; [right; right; left; reflexivity|reflexivity|discriminate].
  - intros (t & k & J & NE & S). apply starts_firstn in S as [E L]. cbn in J.
    destruct J as [[= <- <-]|[[= <- <-]|[[= <- <-]|[]]]]; cbn [length] in L; destruct (length w) as [|[|[|[|]]]] eqn:El; try lia; cbn [firstn] in E; subst w; try congruence; cbn; tauto.
Qed.
Example C159_instance name : exists m, fst (alergia_fit trace_eqb trace_leb 20 tree (1/10) false name) = Some (Ok m) /\ mc_n m = 6%nat /\
  mc_trace_prob m ["init"; "a"; "c"]%string = 1/8.
Proof.
  assert (NW : NoDup tree_prefixes) by (repeat constructor; cbn; intuition discriminate).
  destruct (C159_unmerged tree (1/10) 20 name (with_init (traces tree)) tree_prefixes 3 ltac:(lra) tree_usable tree_readings ltac:(cbn; lia) NW tree_prefixes_ok) as (m & E & H).
  { intros t k J. cbn in J. destruct J as [[= <- <-]|[[= <- <-]|[[= <- <-]|[]]]]; reflexivity. }
  exists m. split; [exact E|]. destruct (fit_any tree (1/10) 20 name _ tree_usable ltac:(cbn; lia) tree_readings) as (m1 & f & E1 & _ & _ & _ & _ & Q).
  assert (m1 = m) as -> by congruence.
  assert (N6 : mc_n m = 6%nat).
  { apply Nat.le_antisymm.
    - (* every state is reached by a prefix *)
      rewrite <- (seq_length (mc_n m) 0). change 6%nat with (length (map f tree_prefixes)). apply NoDup_incl_length; [apply seq_NoDup|]. intros i I. apply in_seq in I.
      destruct (q_onto _ _ _ Q i ltac:(lia)) as [->|(t & k & w & J & NE & S & <-)].
      + rewrite <- (proj1 (q_start _ _ _ Q)). apply in_map. left. reflexivity.
      + apply in_map. apply tree_prefixes_ok. exists t, k. auto.
    - (* the six labels are different *)
      assert (ND : NoDup (map f tree_prefixes)).
      { apply (NoDup_map_inv (fun i => nth i (mc_lab m) EmptyString)). rewrite map_map.
        assert (EL : map (fun w => nth (f w) (mc_lab m) EmptyString) tree_prefixes = ["init"; "a"; "b"; "c"; "d"; "e"]%string).
        { cbn [map tree_prefixes]. 
          assert (P : forall t k w o, In (t, k) (with_init (traces tree)) -> starts (w ++ [o]) t = true -> nth (f (w ++ [o])) (mc_lab m) EmptyString = o) by (intros t k w o J S; apply (q_label _ _ _ Q t k w o J S)).
          apply f_equal2; [exact (P ["init"; "a"; "b"]%string 3%Z [] "init"%string (or_introl eq_refl) eq_refl)|].
          apply f_equal2; [exact (P ["init"; "a"; "b"]%string 3%Z ["init"]%string "a"%string (or_introl eq_refl) eq_refl)|].
          apply f_equal2; [exact (P ["init"; "a"; "b"]%string 3%Z ["init"; "a"]%string "b"%string (or_introl eq_refl) eq_refl)|].
          apply f_equal2; [exact (P ["init"; "a"; "c"]%string 1%Z ["init"; "a"]%string "c"%string (or_intror (or_introl eq_refl)) eq_refl)|].
          apply f_equal2; [exact (P ["init"; "d"; "e"]%string 4%Z ["init"]%string "d"%string (or_intror (or_intror (or_introl eq_refl))) eq_refl)|].
          apply f_equal2; [exact (P ["init"; "d"; "e"]%string 4%Z ["init"; "d"]%string "e"%string (or_intror (or_intror (or_introl eq_refl))) eq_refl)|reflexivity]. }
        rewrite EL. repeat constructor; cbn; intuition discriminate. }
      change 6%nat with (length (map f tree_prefixes)). rewrite <- (seq_length (mc_n m) 0). apply NoDup_incl_length; [exact ND|].
      intros i I. apply in_map_iff in I as (w & <- & I). apply in_seq. apply tree_prefixes_ok in I as (t & k & J & NE & S). destruct (exists_last NE) as (v & o & ->).
      pose proof (proj1 (q_label _ _ _ Q t k v o J S)). lia. }
  split; [exact N6|]. rewrite (H N6 ["init"; "a"; "c"]%string 1%Z) by (cbn; tauto). cbn. lra.
Qed.
