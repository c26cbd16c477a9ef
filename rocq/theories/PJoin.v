(** C157: scores of longer traces and of joined sets. *)
From Coq Require Import String ZArith Bool Reals Lra Lia List.
From Verif Require Import Num Py SNum SPath LSum MSet SSet LSet MModels MLik SBW SLik LPath LFB LLik LLik2 PLik SGibbs LGibbs LPLearn3 LEMGen LBWMDP PBWMDP PBWGO PGibbs.
Import ListNotations.
Local Open Scope R_scope.

(** ** Longer traces *)
Section Ext.
  Context {O : Type} (n : nat) (B : O -> nat -> R) (alph : list O).
  Hypothesis HB : forall s, (s < n)%nat -> sumL alph (fun o => B o s) = 1.
  Definition one_rows (A : nat -> nat -> R) : Prop := forall s, (s < n)%nat -> Sum n (A s) = 1.

  Lemma hB_cons A As o r s : hB n B (A :: As) (o :: r) s = B o s * Sum n (fun s' => A s s' * hB n B As r s').
  Proof. destruct r; reflexivity. Qed.
  Lemma hB_words As : Forall one_rows As -> forall tr s As0, length tr = S (length As0) -> (s < n)%nat ->
    sumL (words alph (length As)) (fun w => hB n B (As0 ++ As) (tr ++ w) s) = hB n B As0 tr s.
  Proof.
    intros F. induction tr as [|o tr IH]; intros s As0 L Ls; [discriminate|]. destruct As0 as [|A As0].
    - destruct tr; [|discriminate]. cbn [app]. clear IH. destruct As as [|A As]; [cbn [length words]; rewrite sumL_cons, sumL_nil; cbn; ring|]. inversion F as [|? ? F1 F2]; subst. cbn [length].
      rewrite (sumL_ext _ _ (fun w => B o s * Sum n (fun s' => A s s' * hB n B As w s'))) by (intros; apply hB_cons). rewrite sumL_scal_l. cbn [hB].
      replace (sumL _ _) with 1; [ring|]. symmetry. unfold Sum. rewrite sumL_swap. rewrite <- (F1 s Ls). apply sumL_ext. intros s' I. apply in_seq in I. rewrite sumL_scal_l.
      rewrite (hB_sum n B alph 1) by (assumption || lia || reflexivity). ring.
    - cbn [app]. injection L as L. rewrite (sumL_ext _ _ (fun w => B o s * Sum n (fun s' => A s s' * hB n B (As0 ++ As) (tr ++ w) s'))) by (intros; apply hB_cons).
      rewrite sumL_scal_l, hB_cons. f_equal. unfold Sum. rewrite sumL_swap. apply sumL_ext. intros s' I. apply in_seq in I. rewrite sumL_scal_l, IH by (assumption || lia). reflexivity.
  Qed.
  Lemma hB_longer As : (forall o s, (s < n)%nat -> 0 <= B o s <= 1) -> Forall (okw n) As -> Forall (fun A => forall s, (s < n)%nat -> Sum n (A s) <= 1) As ->
    forall tr w s As0, length tr = S (length As0) -> length w = length As -> Forall (okw n) As0 -> (s < n)%nat -> hB n B (As0 ++ As) (tr ++ w) s <= hB n B As0 tr s.
  Proof.
    intros HB1 Ok1 S1. induction tr as [|o tr IH]; intros w s As0 L Lw Ok0 Ls; [discriminate|]. destruct As0 as [|A As0].
    - destruct tr; [|discriminate]. cbn [app]. clear IH. destruct As as [|A As]; [destruct w; [cbn; lra|discriminate]|]. inversion Ok1; inversion S1; subst. rewrite hB_cons. cbn [hB].
      assert (Q : Sum n (fun s' => A s s' * hB n B As w s') <= 1).
      { apply Rle_trans with (Sum n (A s)); [|auto]. apply Sum_le. intros s' Ls'. rewrite <- (Rmult_1_r (A s s')) at 2. apply Rmult_le_compat_l; [auto|]. apply hB_le1; assumption. }
      rewrite <- (Rmult_1_r (B o s)) at 2. apply Rmult_le_compat_l; [apply HB1, Ls|exact Q].
    - cbn [app]. injection L as L. inversion Ok0; subst. rewrite !hB_cons. apply Rmult_le_compat_l; [apply HB1, Ls|]. apply Sum_le. intros s' Ls'. apply Rmult_le_compat_l; [auto|]. apply IH; assumption.
  Qed.
  Lemma tp_words_ext pi As0 As tr : Forall one_rows As -> length tr = S (length As0) ->
    sumL (words alph (length As)) (fun w => trace_prob n pi (As0 ++ As) (map B (tr ++ w))) = trace_prob n pi As0 (map B tr).
  Proof.
    intros F L. rewrite (trace_prob_hB n B pi As0 tr L). rewrite (sumL_ext _ _ (fun w => Sum n (fun s => pi s * hB n B (As0 ++ As) (tr ++ w) s))).
    - unfold Sum. rewrite sumL_swap. apply sumL_ext. intros s I. apply in_seq in I. rewrite sumL_scal_l, hB_words by (assumption || lia). reflexivity.
    - intros w I. apply words_length in I. apply trace_prob_hB. rewrite !app_length. lia.
  Qed.
  Lemma tp_longer pi As0 As tr w : (forall o s, (s < n)%nat -> 0 <= B o s <= 1) -> Forall (okw n) As0 -> Forall (okw n) As -> Forall (fun A => forall s, (s < n)%nat -> Sum n (A s) <= 1) As -> okf n pi ->
    length tr = S (length As0) -> length w = length As -> trace_prob n pi (As0 ++ As) (map B (tr ++ w)) <= trace_prob n pi As0 (map B tr).
  Proof.
    intros HB1 O0 O1 S1 Op L Lw. rewrite !trace_prob_hB by (rewrite ?app_length; lia). apply Sum_le. intros s Ls. apply Rmult_le_compat_l; [apply Op, Ls|]. apply hB_longer; assumption.
  Qed.
End Ext.

Lemma rep_split {A} (a : A) {Y} (tr w : list Y) : tr <> [] -> repeat a (length (tr ++ w) - 1) = repeat a (length tr - 1) ++ repeat a (length w).
Proof. intros NE. rewrite app_length, <- repeat_app. f_equal. destruct tr; [congruence|]. cbn. lia. Qed.
Lemma Forall_repeat {A} (P : A -> Prop) a k : P a -> Forall P (repeat a k).
Proof. intros H. induction k; constructor; assumption. Qed.
Lemma pred_S {Y} (tr : list Y) : tr <> [] -> length tr = S (length tr - 1).
Proof. intros NE. destruct tr; [congruence|]. cbn. lia. Qed.

(** The number of states, the rows and the emissions of the three kinds of models. *)
Lemma source_shape x : proper x -> exists n pi A B, (forall tr, law x tr = trace_prob n pi (repeat A (length tr - 1)) (map B tr)) /\
  okf n pi /\ okw n A /\ one_rows n A /\ (forall o s, (s < n)%nat -> 0 <= B o s <= 1) /\
  (forall alph, NoDup alph -> (forall o, In o (symbols x) -> In o alph) -> forall s, (s < n)%nat -> sumL alph (fun o => B o s) = 1).
Proof.
  intros Pr. destruct x as [m|m|m]; cbn [law proper symbols] in *.
  - destruct Pr as (W & (Nm & Sm) & Si). pose proof W as (Sq & Ll & Li & Ni). exists (mc_n m), (vecR (mc_ini m)), (matR (mc_mat m)), (is_label (mc_lab m)). split; [reflexivity|].
    split; [intros s _; apply vecR_nonneg, Ni|]. split; [intros s s' _ _; apply matR_nonneg, Nm|]. split; [intros s Ls; apply row_sums; assumption|].
    split; [intros o s _; destruct (is_label_01 (mc_lab m) o s); lra|]. intros alph ND H s Ls. apply is_label_total; auto. lia.
  - destruct Pr as (W & (Nm & Sm) & (No & So) & Si). pose proof W as (Sq & Lo & Lr & ND0 & Li & Ni). exists (hmm_n m), (vecR (hmm_ini m)), (matR (hmm_mat m)), (emit m). split; [reflexivity|].
    assert (T : forall alph, NoDup alph -> (forall o, In o (hmm_alph m) -> In o alph) -> forall s, (s < hmm_n m)%nat -> sumL alph (fun o => emit m o s) = 1).
    { intros alph ND H s Ls. rewrite <- (sumL_sub String.string_dec (hmm_alph m) alph) by (auto; intros; apply emit_unknown; assumption). rewrite emit_total by assumption. apply So, nth_In. lia. }
    split; [intros s _; apply vecR_nonneg, Ni|]. split; [intros s s' _ _; apply matR_nonneg, Nm|]. split; [intros s Ls; apply row_sums; assumption|]. split; [|exact T].
    intros o s Ls. split; [apply emit_nonneg, No|]. destruct (in_dec String.string_dec o (hmm_alph m)) as [I|I]; [|rewrite emit_unknown by exact I; lra].
    rewrite <- (T (hmm_alph m) ND0 (fun _ H => H) s Ls). apply (sumL_ge_term (hmm_alph m) (fun o => emit m o s)); [exact I|]. intros; apply emit_nonneg, No.
  - destruct Pr as (W & N & E & Si). pose proof W as (Sq & Ll & Li & Ni). exists (ct_n m), (vecR (ct_ini m)), (jump m), (is_label (ct_lab m)). split; [reflexivity|].
    split; [intros s _; apply vecR_nonneg, Ni|]. split; [intros s s' _ _; apply jump_nonneg, N|]. split.
    { intros s Ls. unfold jump, Sum, Rdiv. rewrite sumL_scal_r. fold (Sum (ct_n m) (matR (ct_mat m) s)). replace (Sum (ct_n m) (matR (ct_mat m) s)) with (exit_rate m s); [apply Rinv_r, E, Ls|].
      unfold exit_rate. destruct Sq as [L1 L2]. rewrite rsum_nth, (L2 (nth s (ct_mat m) [])) by (apply nth_In; rewrite L1; exact Ls). reflexivity. }
    split; [intros o s _; destruct (is_label_01 (ct_lab m) o s); lra|]. intros alph ND H s Ls. apply is_label_total; auto. lia.
Qed.

(** The probability of a trace is the sum of the probabilities of its extensions
    by k symbols; an extension is never more likely. *)
Theorem C157_extensions : forall (x : source) (alphabet tr : list string) (k : nat), proper x -> NoDup alphabet -> (forall o, In o (symbols x) -> In o alphabet) -> tr <> [] ->
  sumL (words alphabet k) (fun w => law x (tr ++ w)) = law x tr /\ forall w, 0 <= law x (tr ++ w) <= law x tr.
Proof.
  intros x alph tr k Pr ND Ha NE. destruct (source_shape x Pr) as (n & pi & A & B & E & Op & Oa & Ra & B1 & Hs). split.
  - rewrite E. rewrite (sumL_ext _ _ (fun w => trace_prob n pi (repeat A (length tr - 1) ++ repeat A k) (map B (tr ++ w)))).
    + pose proof (tp_words_ext n B alph (Hs alph ND Ha) pi (repeat A (length tr - 1)) (repeat A k) tr) as X. rewrite !repeat_length in X. apply X; [apply Forall_repeat, Ra|apply pred_S, NE].
    + intros w I. apply words_length in I. rewrite E, rep_split by exact NE. rewrite I. reflexivity.
  - intros w. split; [apply law_nonneg; [exact Pr|]; destruct tr; [congruence|discriminate]|]. rewrite !E, rep_split by exact NE. apply tp_longer; try assumption; try (apply Forall_repeat; assumption).
    + apply Forall_repeat. intros s Ls. rewrite Ra by exact Ls. lra.
    + rewrite repeat_length. apply pred_S, NE.
    + rewrite repeat_length. reflexivity.
Qed.
Print Assumptions C157_extensions.

(** The score of a possible trace is at most the score of each of its prefixes. *)
Theorem C157_longer_trace_score : forall (x : source) (tr w : list string) (t : Z) (k : option Z), proper x -> tr <> [] -> (1 <= t)%Z -> 0 < law x (tr ++ w) ->
  exists v v', score x (mkset [tr] [t] k) = Ok v /\ score x (mkset [tr ++ w] [t] k) = Ok v' /\ v' <= v <= 0.
Proof.
  intros x tr w t k Pr NE Ht Pp. assert (NE' : tr ++ w <> []) by (destruct tr; [congruence|discriminate]).
  assert (U : forall y : list string, y <> [] -> usable (mkset [y] [t] k)) by (intros y Ny; split; [reflexivity|split; [intros u [<-|[]]; exact Ht|intros [E|[]]; congruence]]).
  assert (Z : forall y, 0 < law x y -> avg_ll (law x) (weighted (mkset [y] [t] k)) = ln (law x y)).
  { intros y Py. unfold avg_ll, set_ll, weighted. cbn [combine seqs times map snd zsum fst]. rewrite sumL_cons, sumL_nil. cbn [fst snd]. destruct (Rlt_dec 0 (law x y)); [|contradiction]. replace (t + 0)%Z with t by lia. field. apply not_0_IZR. lia. }
  destruct (C157_extensions x (nodup String.string_dec (symbols x)) tr 0 Pr (NoDup_nodup _ _) (fun o => proj2 (nodup_In String.string_dec (symbols x) o)) NE) as [_ X]. specialize (X w).
  exists (ln (law x tr)), (ln (law x (tr ++ w))). rewrite !score_eq by auto. rewrite !Z by lra. split; [reflexivity|]. split; [reflexivity|].
  assert (Q : law x tr <= 1).
  { replace (law x tr) with (sumL [tr] (law x)) by (rewrite sumL_cons, sumL_nil; ring). apply (law_part x [tr] (length tr - 1)); [exact Pr|repeat constructor; intros []|]. intros y [<-|[]]. apply pred_S, NE. }
  split.
  - destruct X as [_ [Lt|Eq]]; [left; apply ln_increasing; assumption|rewrite Eq; right; reflexivity].
  - rewrite <- ln_1. destruct Q as [Lt|Eq]; [left; apply ln_increasing; lra|rewrite Eq; right; reflexivity].
Qed.
Print Assumptions C157_longer_trace_score.

(** MDPs, for a fixed sequence of further actions: the probabilities of the
    extensions add up when these actions can be taken in every state. *)
Theorem C157_mdp_extensions : forall (m : mdp R) (alphabet obs acts more : list string), wf_mdp m -> nonneg_mdp m ->
  (forall a s, In a more -> (s < mdp_n m)%nat -> Sum (mdp_n m) (act_mat m a s) <= 1) -> length obs = S (length acts) ->
  (forall w, length w = length more -> 0 <= mdp_trace_prob m (interleave (obs ++ w) (acts ++ more)) <= mdp_trace_prob m (interleave obs acts)) /\
  ((forall a s, In a more -> (s < mdp_n m)%nat -> Sum (mdp_n m) (act_mat m a s) = 1) -> NoDup alphabet -> (forall o, In o (mdp_lab m) -> In o alphabet) ->
   sumL (words alphabet (length more)) (fun w => mdp_trace_prob m (interleave (obs ++ w) (acts ++ more))) = mdp_trace_prob m (interleave obs acts)).
Proof.
  intros m alph obs acts more W N Le L.
  assert (E : forall os as', length os = S (length as') -> mdp_trace_prob m (interleave os as') = trace_prob (mdp_n m) (vecR (mdp_ini m)) (map (act_mat m) as') (map (is_label (mdp_lab m)) os)).
  { intros os as' H. destruct (interleave_spec os as' H) as [X Y]. unfold mdp_trace_prob. rewrite X, Y. reflexivity. }
  assert (Oa : forall l, Forall (okw (mdp_n m)) (map (act_mat m) l)).
  { intros l. apply Forall_forall. intros A I. apply in_map_iff in I. destruct I as [a [<- _]]. intros i j _ _. apply act_mat_nonneg; exact N. }
  assert (Op : okf (mdp_n m) (vecR (mdp_ini m))) by (intros s _; apply vecR_nonneg, W). split.
  - intros w Lw. rewrite !E by (rewrite ?app_length; lia). rewrite (map_app (act_mat m)). split.
    + apply trace_prob_nonneg; [intros; edestruct is_label_01 as [Q|Q]; rewrite Q; lra|apply Forall_app; split; apply Oa|exact Op|]. rewrite !app_length, !map_length. lia.
    + apply tp_longer; auto.
      * intros o s _. destruct (is_label_01 (mdp_lab m) o s); lra.
      * apply Forall_forall. intros A I. apply in_map_iff in I. destruct I as [a [<- I]]. intros s Ls. apply Le; assumption.
      * rewrite map_length. exact L.
      * rewrite map_length. exact Lw.
  - intros One ND Ha. rewrite E by exact L. rewrite (sumL_ext _ _ (fun w => trace_prob (mdp_n m) (vecR (mdp_ini m)) (map (act_mat m) acts ++ map (act_mat m) more) (map (is_label (mdp_lab m)) (obs ++ w)))).
    + pose proof (fun H => tp_words_ext (mdp_n m) (is_label (mdp_lab m)) alph H (vecR (mdp_ini m)) (map (act_mat m) acts) (map (act_mat m) more) obs) as X. rewrite !map_length in X. apply X; [| |exact L].
      * intros s Ls. apply is_label_total; auto. destruct W as [_ [Ll _]]. lia.
      * apply Forall_forall. intros A I. apply in_map_iff in I. destruct I as [a [<- I]]. intros s Ls. apply One; assumption.
    + intros w I. apply words_length in I. rewrite E by (rewrite !app_length; lia). rewrite (map_app (act_mat m)). reflexivity.
Qed.
Print Assumptions C157_mdp_extensions.

(** ** Joined sets *)
Section Join.
  Context {A : Type} (eqb : list A -> list A -> bool) (De : decides_eq eqb).
  Lemma wmult_pos (l : list (list A * Z)) x : (forall t, In t (map snd l) -> (1 <= t)%Z) -> (0 <= wmult eqb x l)%Z /\ (In x (map fst l) -> (1 <= wmult eqb x l)%Z).
  Proof.
    induction l as [|[y t] l IH]; intros H; cbn [wmult map fst snd] in *; [split; [lia|intros []]|]. destruct IH as [I1 I2]; [intros; apply H; right; assumption|].
    pose proof (H t (or_introl eq_refl)). split; [destruct (eqb x y); lia|]. intros [->|I].
    - rewrite (proj2 (De x x) eq_refl). lia.
    - specialize (I2 I). destruct (eqb x y); lia.
  Qed.
  Lemma joined_usable s1 s2 : wf_set s1 -> usable s1 -> usable s2 -> ty s1 = ty s2 ->
    exists s, addSet eqb s1 s2 = Ok s /\ wf_set s /\ usable s /\ (forall x, In x (seqs s) <-> In x (seqs s1) \/ In x (seqs s2)) /\
      forall x, wmult eqb x (weighted s) = wmult eqb x (weighted s1 ++ weighted s2).
  Proof.
    intros W1 (L1 & P1 & N1) (L2 & P2 & N2) T. destruct (addSet_spec eqb De s1 s2 W1 L2 T) as (s & E & Ws & _ & _ & I & M). exists s. split; [exact E|]. split; [exact Ws|]. destruct Ws as [Ls Ns]. split.
    - split; [exact Ls|]. split; [|rewrite I; tauto]. intros t It. destruct (In_nth_error _ _ It) as [i Ei].
      destruct (nth_error (seqs s) i) as [x|] eqn:Ex; [|apply nth_error_None in Ex; assert (i < length (times s))%nat by (apply nth_error_Some; congruence); lia].
      assert (C : nth_error (combine (seqs s) (times s)) i = Some (x, t)).
      { clear - Ex Ei. revert i Ex Ei. generalize (times s). induction (seqs s) as [|y ss IH]; intros [|u ts] [|i] Ex Ei; cbn in *; try discriminate; [congruence|apply IH; assumption]. }
      assert (Q : mult eqb s x = t) by (unfold mult; apply (wmult_nth eqb De _ i); [rewrite combine_map_fst by exact Ls; exact Ns|exact C]).
      rewrite <- Q, M. unfold mult. destruct (wmult_pos (combine (seqs s1) (times s1)) x) as [A1 B1]; [rewrite combine_map_snd by exact L1; exact P1|].
      destruct (wmult_pos (combine (seqs s2) (times s2)) x) as [A2 B2]; [rewrite combine_map_snd by exact L2; exact P2|].
      rewrite combine_map_fst in B1 by exact L1. rewrite combine_map_fst in B2 by exact L2. apply nth_error_In in Ex. apply I in Ex. destruct Ex as [Ix|Ix]; [specialize (B1 Ix)|specialize (B2 Ix)]; lia.
    - split; [exact I|]. intros x. rewrite wmult_app. exact (M x).
  Qed.
  Lemma zsum_app l m : zsum (l ++ m) = (zsum l + zsum m)%Z.
  Proof. induction l as [|t l IH]; [reflexivity|]. cbn [app zsum]. rewrite IH. lia. Qed.
  Lemma joined_avg (P : list A -> R) s1 s2 s : usable s1 -> usable s2 -> zsum (times s1) <> 0%Z -> zsum (times s2) <> 0%Z -> (zsum (times s1) + zsum (times s2) <> 0)%Z ->
    (forall x, wmult eqb x (weighted s) = wmult eqb x (weighted s1 ++ weighted s2)) ->
    avg_ll P (weighted s) * (IZR (zsum (times s1)) + IZR (zsum (times s2))) = avg_ll P (weighted s1) * IZR (zsum (times s1)) + avg_ll P (weighted s2) * IZR (zsum (times s2)).
  Proof.
    intros (L1 & _) (L2 & _) Z1 Z2 Z3 M. rewrite (avg_ll_mult eqb De P _ _ M). unfold avg_ll, set_ll. rewrite sumL_app, map_app, zsum_app, plus_IZR. unfold weighted. rewrite !combine_map_snd by assumption.
    rewrite <- plus_IZR. field. repeat split; apply not_0_IZR; assumption.
  Qed.
  Lemma usable_total (s : tset (list A)) : usable s -> seqs s <> [] -> (1 <= zsum (times s))%Z.
  Proof.
    intros (L & P & _) NE. destruct (seqs s); [congruence|]. unfold pos_set in P. destruct (times s) as [|t ts]; [discriminate|]. clear - P. pose proof (P t (or_introl eq_refl)).
    assert (0 <= zsum ts)%Z; [|cbn [zsum]; lia]. assert (Q : forall u, In u ts -> (1 <= u)%Z) by (intros; apply P; right; assumption). clear - Q.
    induction ts as [|u ts IH]; [cbn; lia|]. pose proof (Q u (or_introl eq_refl)). assert (0 <= zsum ts)%Z by (apply IH; intros; apply Q; right; assumption). cbn [zsum]. lia.
  Qed.
End Join.

(** Joining two sets: the score of the result is the mean of the two scores,
    weighted by the numbers of traces. *)
Theorem C157_joined_score : forall (x : source) (s1 s2 : tset (list string)), proper x -> wf_set s1 -> usable s1 -> usable s2 -> seqs s1 <> [] -> seqs s2 <> [] -> ty s1 = ty s2 ->
  exists s v v1 v2, addSet trace_eqb s1 s2 = Ok s /\ score x s = Ok v /\ score x s1 = Ok v1 /\ score x s2 = Ok v2 /\
    v * (IZR (zsum (times s1)) + IZR (zsum (times s2))) = v1 * IZR (zsum (times s1)) + v2 * IZR (zsum (times s2)).
Proof.
  intros x s1 s2 Pr W1 U1 U2 NE1 NE2 T. pose proof (lex_eqb_decides _ string_eqb_decides) as De. destruct (joined_usable trace_eqb De s1 s2 W1 U1 U2 T) as (s & E & W & U & I & M).
  exists s, (avg_ll (law x) (weighted s)), (avg_ll (law x) (weighted s1)), (avg_ll (law x) (weighted s2)). pose proof (usable_total s1 U1 NE1). pose proof (usable_total s2 U2 NE2).
  split; [exact E|]. split; [apply score_eq; assumption|]. split; [apply score_eq; assumption|]. split; [apply score_eq; assumption|]. apply (joined_avg trace_eqb De); try assumption; lia.
Qed.
Print Assumptions C157_joined_score.
Theorem C157_mdp_joined_score : forall (m : mdp R) (s1 s2 : tset (list string)), wf_mdp m -> nonneg_mdp m -> wf_set s1 -> usable s1 -> usable s2 -> seqs s1 <> [] -> seqs s2 <> [] -> ty s1 = ty s2 ->
  (forall tr, In tr (seqs s1) \/ In tr (seqs s2) -> Nat.odd (length tr) = true) ->
  exists s v v1 v2, addSet trace_eqb s1 s2 = Ok s /\ mdp_logLikelihood m s = Ok v /\ mdp_logLikelihood m s1 = Ok v1 /\ mdp_logLikelihood m s2 = Ok v2 /\
    v * (IZR (zsum (times s1)) + IZR (zsum (times s2))) = v1 * IZR (zsum (times s1)) + v2 * IZR (zsum (times s2)).
Proof.
  intros m s1 s2 Wm N W1 U1 U2 NE1 NE2 T Od. pose proof (lex_eqb_decides _ string_eqb_decides) as De. destruct (joined_usable trace_eqb De s1 s2 W1 U1 U2 T) as (s & E & W & U & I & M).
  exists s, (avg_ll (mdp_trace_prob m) (weighted s)), (avg_ll (mdp_trace_prob m) (weighted s1)), (avg_ll (mdp_trace_prob m) (weighted s2)). pose proof (usable_total s1 U1 NE1). pose proof (usable_total s2 U2 NE2).
  assert (NE : seqs s <> []). { destruct (seqs s1) as [|y l]; [congruence|]. intros Q. assert (In y (seqs s)) as X by (apply I; left; left; reflexivity). rewrite Q in X. destruct X. }
  split; [exact E|]. split; [apply C27_mdp_logLikelihood; auto; intros tr H1; apply Od, I, H1|]. split; [apply C27_mdp_logLikelihood; auto|]. split; [apply C27_mdp_logLikelihood; auto|].
  apply (joined_avg trace_eqb De); try assumption; lia.
Qed.
Print Assumptions C157_mdp_joined_score.
(** Sequences of real observations, compared with any test that decides equality. *)
Theorem C157_gohmm_joined_score : forall (m : gohmm R) (d : nat) (eqb : list (list R) -> list (list R) -> bool) (s1 s2 : tset (list (list R))), wf_gohmm d m ->
  (forall st k, (st < go_n m)%nat -> (k < d)%nat -> 0 < stddev m st k) -> decides_eq eqb ->
  wf_set s1 -> usable s1 -> usable s2 -> seqs s1 <> [] -> seqs s2 <> [] -> ty s1 = ty s2 ->
  (forall tr o, In tr (seqs s1) \/ In tr (seqs s2) -> In o tr -> length o = d) ->
  exists s v v1 v2, addSet eqb s1 s2 = Ok s /\ go_logLikelihood m s = Ok v /\ go_logLikelihood m s1 = Ok v1 /\ go_logLikelihood m s2 = Ok v2 /\
    v * (IZR (zsum (times s1)) + IZR (zsum (times s2))) = v1 * IZR (zsum (times s1)) + v2 * IZR (zsum (times s2)).
Proof.
  intros m d eqb s1 s2 Wm P De W1 U1 U2 NE1 NE2 T Hd. destruct (joined_usable eqb De s1 s2 W1 U1 U2 T) as (s & E & W & U & I & M).
  exists s, (avg_ll (go_trace_density m) (weighted s)), (avg_ll (go_trace_density m) (weighted s1)), (avg_ll (go_trace_density m) (weighted s2)). pose proof (usable_total s1 U1 NE1). pose proof (usable_total s2 U2 NE2).
  split; [exact E|]. split; [apply (C27_gohmm_logLikelihood m d); auto; intros tr o H1; apply Hd, I, H1|]. split; [apply (C27_gohmm_logLikelihood m d); eauto|]. split; [apply (C27_gohmm_logLikelihood m d); eauto|].
  apply (joined_avg eqb De); try assumption; lia.
Qed.
Print Assumptions C157_gohmm_joined_score.

(** ** The hypotheses hold: a chain, an MDP and a model with Gaussian outputs *)
Definition more_four : tset (list string) := mkset [["a"; "b"]; ["a"; "b"; "b"]]%string [5; 2]%Z (ty four).
Lemma more_four_usable : usable more_four.
Proof. split; [reflexivity|]. split; [intros t [<-|[<-|[]]]; lia|]. intros [E|[E|[]]]; discriminate. Qed.
Example C157_source_instance :
  sumL (words ["a"; "b"]%string 2) (fun w => law (FromMC gen) (["a"; "b"]%string ++ w)) = 3/4 /\
  (exists v v', score (FromMC gen) (mkset [["a"]]%string [2%Z] None) = Ok v /\ score (FromMC gen) (mkset [["a"; "b"]]%string [2%Z] None) = Ok v' /\ v' <= v <= 0) /\
  exists s v v1 v2, addSet trace_eqb four more_four = Ok s /\ score (FromMC gen) s = Ok v /\ score (FromMC gen) four = Ok v1 /\ score (FromMC gen) more_four = Ok v2 /\ v * (4 + 7) = v1 * 4 + v2 * 7.
Proof.
  split; [|split].
  - rewrite <- gen_ab. apply (C157_extensions (FromMC gen)); [exact gen_proper|repeat constructor; cbn; intuition discriminate|cbn; tauto|discriminate].
  - apply (C157_longer_trace_score (FromMC gen) ["a"]%string ["b"]%string); [exact gen_proper|discriminate|lia|]. cbn [law app]. rewrite gen_ab. lra.
  - apply (C157_joined_score (FromMC gen) four more_four gen_proper); [split; [reflexivity|exact four_NoDup]|exact four_usable|exact more_four_usable|discriminate|discriminate|reflexivity].
Qed.
Example C157_mdp_instance :
  sumL (words ["x"; "y"]%string 1) (fun w => mdp_trace_prob ex_mdp (interleave (["x"; "y"]%string ++ w) ["a"; "a"]%string)) = mdp_trace_prob ex_mdp ["x"; "a"; "y"]%string /\
  exists s v v1 v2, addSet trace_eqb ex_dset ex_dset = Ok s /\ mdp_logLikelihood ex_mdp s = Ok v /\ mdp_logLikelihood ex_mdp ex_dset = Ok v1 /\ mdp_logLikelihood ex_mdp ex_dset = Ok v2 /\ v * (3 + 3) = v1 * 3 + v2 * 3.
Proof.
  destruct C36_C37_C40_C42_instance as (W & N & _ & _ & _ & U & _).
  assert (One : forall a s, In a ["a"]%string -> (s < mdp_n ex_mdp)%nat -> Sum (mdp_n ex_mdp) (act_mat ex_mdp a s) = 1).
  { intros a s [<-|[]] Ls. unfold mdp_n in Ls; cbn in Ls. destruct s as [|[|s]]; [| |lia]; unfold act_mat, Sum, sumL; cbn; lra. }
  split.
  - apply (C157_mdp_extensions ex_mdp ["x"; "y"]%string ["x"; "y"]%string ["a"]%string ["a"]%string W N); [intros; rewrite One by assumption; lra|reflexivity|exact One|repeat constructor; cbn; intuition discriminate|cbn; tauto].
  - apply (C157_mdp_joined_score ex_mdp ex_dset ex_dset W N); try assumption; try discriminate; [|reflexivity|].
    + split; [reflexivity|]. repeat constructor; cbn; intuition discriminate.
    + cbn. intros tr H. assert (tr = ["x"; "a"; "y"]%string \/ tr = ["x"; "b"; "y"; "a"; "x"]%string) as Q by (intuition congruence). destruct Q as [->| ->]; reflexivity.
Qed.
Example C157_gohmm_instance : exists eqb s v v1 v2, addSet eqb ex_gset ex_gset = Ok s /\ go_logLikelihood ex_go s = Ok v /\ go_logLikelihood ex_go ex_gset = Ok v1 /\ go_logLikelihood ex_go ex_gset = Ok v2 /\ v * (3 + 3) = v1 * 3 + v2 * 3.
Proof.
  destruct C71_C75_instance as (W & _ & _ & F & U & Ho & _).
  exists (fun x y => if list_eq_dec (list_eq_dec Req_EM_T) x y then true else false). apply (C157_gohmm_joined_score ex_go 1 _ ex_gset ex_gset W); try assumption; try discriminate; try reflexivity.
  - intros st k H1 H2. apply F; assumption.
  - intros x y. destruct (list_eq_dec (list_eq_dec Req_EM_T) x y); split; congruence.
  - split; [reflexivity|]. repeat constructor; cbn; [|intros []]. intros [E|[]]. injection E. intros. lra.
  - intros tr o H. apply Ho. tauto.
Qed.
