(** Proofs about jajapy/base/tools.py *)
From Coq Require Import Reals List Lra Lia Bool ZArith Arith.
From Verif Require Import Num Py SNum LSum MTools.
Import ListNotations.
Local Open Scope R_scope.

Lemma nonneg_cons x l : nonneg (x :: l) <-> 0 <= x /\ nonneg l.
Proof.
  split; [intros N; split; [apply N; left; reflexivity|intros y I; apply N; right; exact I]|].
  intros [X N] y [->|I]; [exact X|apply N; exact I].
Qed.
Lemma nonneg_rsum l : nonneg l -> 0 <= rsum l.
Proof. induction l; rewrite ?rsum_nil, ?rsum_cons; [lra|]. rewrite nonneg_cons; intros [X N]; specialize (IHl N); lra. Qed.
Lemma nonneg_firstn n l : nonneg l -> nonneg (firstn n l).
Proof. intros N x I; apply N. rewrite <- (firstn_skipn n l). apply in_or_app; left; exact I. Qed.
Lemma nonneg_nth l i : nonneg l -> 0 <= nth i l 0.
Proof. intros N; destruct (Nat.lt_ge_cases i (length l)); [apply N, nth_In; assumption|]. rewrite nth_overflow by assumption; lra. Qed.
Lemma rsum_firstn_S l i : rsum (firstn (S i) l) = rsum (firstn i l) + nth i l 0.
Proof.
  revert i; induction l; intros [|i]; cbn [nth]; try (cbn; lra).
  specialize (IHl i). rewrite !firstn_cons, !rsum_cons, IHl. lra.
Qed.
Lemma rsum_firstn_le l i : nonneg l -> rsum (firstn i l) <= rsum l.
Proof.
  intros N. rewrite <- (firstn_skipn i l) at 2. rewrite rsum_app.
  assert (0 <= rsum (skipn i l)); [|lra]. apply nonneg_rsum. intros x I; apply N.
  rewrite <- (firstn_skipn i l); apply in_or_app; right; exact I.
Qed.
Lemma rsum_firstn_mono l i j : nonneg l -> (i <= j)%nat -> rsum (firstn i l) <= rsum (firstn j l).
Proof.
  intros N L. replace (firstn i l) with (firstn i (firstn j l)) by (rewrite firstn_firstn, Nat.min_l by exact L; reflexivity).
  apply rsum_firstn_le, nonneg_firstn, N.
Qed.

(** Reference selection: the first index whose cumulated weight is non-zero and
    at least r. *)
Fixpoint pick (acc r : R) (m : list R) : option nat :=
  match m with
  | [] => None
  | x :: m' => if Reqb (acc + x) 0 then option_map S (pick (acc + x) r m')
               else if Rleb r (acc + x) then Some O else option_map S (pick (acc + x) r m')
  end.

Lemma resolve_pick_aux acc r (pre m : list R) k :
  length pre = k ->
  resolve_loop r (pre ++ cumsum_from acc m) (nonzero_from k (cumsum_from acc m)) =
  match pick acc r m with Some i => Ok (k + i)%nat | None => Err IndexError end.
Proof.
  revert acc pre k; induction m as [|x m IH]; intros acc pre k L; [reflexivity|].
  cbn [cumsum_from nonzero_from pick]. nR.
  replace (pre ++ acc + x :: cumsum_from (acc + x) m) with ((pre ++ [acc + x]) ++ cumsum_from (acc + x) m)
    by (rewrite <- app_assoc; reflexivity).
  assert (L' : length (pre ++ [acc + x]) = S k) by (rewrite app_length; cbn; lia).
  specialize (IH (acc + x) _ _ L').
  assert (V : vget ((pre ++ [acc + x]) ++ cumsum_from (acc + x) m) k = acc + x).
  { unfold vget. rewrite <- app_assoc, app_nth2, L, Nat.sub_diag by lia. reflexivity. }
  destruct (Reqb (acc + x) 0).
  - rewrite IH. destruct (pick (acc + x) r m); cbn [option_map]; [f_equal; lia|reflexivity].
  - cbn [resolve_loop]. rewrite V. rewrite ?Rltb_leb; nR. destruct (Rleb r (acc + x)); cbn [negb].
    + f_equal; lia.
    + rewrite IH. destruct (pick (acc + x) r m); cbn [option_map]; [f_equal; lia|reflexivity].
Qed.

Lemma resolve_pick (m : list R) r :
  resolveRandom m r = match pick 0 r m with Some i => Ok i | None => Err IndexError end.
Proof. unfold resolveRandom, cumsum, nonzero. apply (resolve_pick_aux 0 r [] m 0). reflexivity. Qed.

Lemma pick_spec acc r m i :
  nonneg m -> 0 <= acc -> 0 <= r -> (acc < r \/ acc = 0) ->
  (pick acc r m = Some i <->
   (i < length m)%nat /\ 0 < nth i m 0 /\
   (acc + rsum (firstn i m) < r <= acc + rsum (firstn (S i) m)
    \/ (r = 0 /\ acc + rsum (firstn i m) = 0))).
Proof.
  intros N Ha Hr Hinv. revert acc i N Ha Hinv; induction m as [|x m IH]; intros acc i N Ha Hinv.
  { cbn; split; [discriminate|intros [L _]; lia]. }
  apply nonneg_cons in N as [X N]. cbn [pick].
  assert (R0 : forall j, acc + rsum (firstn (S j) (x :: m)) = (acc + x) + rsum (firstn j m)).
  { intros j; cbn [firstn]; rewrite rsum_cons; lra. }
  destruct (Reqb (acc + x) 0) eqn:E0; [apply Reqb_true in E0|apply Reqb_false in E0].
  - assert (x = 0) by lra. assert (acc = 0) by lra.
    destruct i as [|i].
    + split; [destruct (pick (acc + x) r m); discriminate|].
      intros [_ [P _]]; cbn in P; lra.
    + transitivity (pick (acc + x) r m = Some i).
      { destruct (pick (acc + x) r m); cbn; split; intros Q; congruence || (injection Q as ->; reflexivity) || (injection Q as Q; congruence). }
      rewrite (IH (acc + x) i N) by lra. rewrite !R0. cbn [length nth]. split; intros [L O]; split; try lia; exact O.
  - destruct (Rleb r (acc + x)) eqn:E1; [apply Rleb_true in E1|apply Rleb_false in E1].
    + destruct i as [|i].
      * split; [intros _|reflexivity]. split; [cbn; lia|].
        rewrite R0. cbn [firstn nth length]. rewrite !rsum_nil.
        destruct Hinv as [Hinv|Hinv]; [split; [lra|left; lra]|]. split; [lra|].
        destruct (Req_dec r 0); [right|left]; lra.
      * split; [discriminate|]. intros [L [P [B|B]]]; exfalso; rewrite !R0 in B.
        -- pose proof (nonneg_rsum _ (nonneg_firstn i m N)). lra.
        -- pose proof (nonneg_rsum _ (nonneg_firstn i m N)). lra.
    + destruct i as [|i].
      * split; [destruct (pick (acc + x) r m); discriminate|].
        intros [_ [P [B|B]]]; exfalso.
        -- rewrite R0 in B. cbn [firstn] in B. rewrite !rsum_nil in B. lra.
        -- lra.
      * transitivity (pick (acc + x) r m = Some i).
        { destruct (pick (acc + x) r m); cbn; split; intros Q; congruence || (injection Q as ->; reflexivity) || (injection Q as Q; congruence). }
        rewrite (IH (acc + x) i N) by lra. rewrite !R0. cbn [length nth]. split; intros [L O]; split; try lia; exact O.
Qed.

Lemma resolveRandom_iff m r i : nonneg m -> 0 <= r ->
  (resolveRandom m r = Ok i <->
   (i < length m)%nat /\ 0 < nth i m 0 /\
   (rsum (firstn i m) < r <= rsum (firstn (S i) m) \/ (r = 0 /\ rsum (firstn i m) = 0))).
Proof.
  intros N Hr. rewrite resolve_pick.
  transitivity (pick 0 r m = Some i).
  { destruct (pick 0 r m); split; intros Q; try congruence. }
  rewrite (pick_spec 0 r m i N) by lra. rewrite !Rplus_0_l. reflexivity.
Qed.

Lemma pick_none acc r m : nonneg m -> 0 <= acc -> 0 <= r -> (acc < r \/ acc = 0) ->
  (pick acc r m = None <-> acc + rsum m < r \/ acc + rsum m = 0 \/ m = []).
Proof.
  intros N Ha Hr Hinv. revert acc N Ha Hinv; induction m as [|x m IH]; intros acc N Ha Hinv.
  { cbn; tauto. }
  apply nonneg_cons in N as [X N]. cbn [pick]. rewrite rsum_cons.
  pose proof (nonneg_rsum m N) as S0.
  assert (OM : forall o : option nat, option_map S o = None <-> o = None) by (intros [?|]; cbn; split; congruence).
  destruct (Reqb (acc + x) 0) eqn:E0; [apply Reqb_true in E0|apply Reqb_false in E0].
  - rewrite OM, (IH (acc + x) N) by lra. split; [intros [A|[A|A]]|intros [A|[A|A]]]; try discriminate; try (left; lra); try (right; left; lra).
    subst m. rewrite rsum_nil in *. right; left; lra.
  - destruct (Rleb r (acc + x)) eqn:E1; [apply Rleb_true in E1|apply Rleb_false in E1].
    + split; [discriminate|intros [A|[A|A]]; [lra|lra|discriminate]].
    + rewrite OM, (IH (acc + x) N) by lra. split; [intros [A|[A|A]]|intros [A|[A|A]]]; try discriminate; try (left; lra); try (right; left; lra).
      subst m. rewrite rsum_nil in *. left; lra.
Qed.

Lemma resolveRandom_err m r : nonneg m -> 0 <= r ->
  (resolveRandom m r = Err IndexError <-> rsum m < r \/ rsum m = 0).
Proof.
  intros N Hr. rewrite resolve_pick.
  transitivity (pick 0 r m = None); [destruct (pick 0 r m); split; intros; try congruence|].
  rewrite (pick_none 0 r m N) by lra. rewrite Rplus_0_l. split; [intros [A|[A|A]]|intros [A|A]]; auto.
  subst; right; reflexivity.
Qed.

Lemma resolveRandom_only_index (m : list R) r e : resolveRandom m r = Err e -> e = IndexError.
Proof. rewrite resolve_pick; destruct (pick 0 r m); congruence. Qed.

(** ** normalize, randomProbabilities *)
Lemma normalize_length (l : list R) : length (normalize l) = length l.
Proof. apply map_length. Qed.
Lemma normalize_sum (l : list R) : rsum l <> 0 -> rsum (normalize l) = 1.
Proof.
  intros Z. unfold normalize. toR. change (rsum (map (fun i => i / rsum l) l)) with (sumL l (fun i => i / rsum l)).
  rewrite sumL_div_r, <- rsum_sumL. apply Rinv_r, Z.
Qed.
Lemma normalize_nth (l : list R) i : (i < length l)%nat -> nth i (normalize l) 0 = nth i l 0 / rsum l.
Proof.
  intros L. unfold normalize. toR.
  rewrite (nth_indep _ 0 ((fun i => i / rsum l) 0)) by (rewrite map_length; exact L).
  apply (map_nth (fun i => i / rsum l)).
Qed.

Lemma rsum_pos l : l <> [] -> (forall x, In x l -> 0 < x) -> 0 < rsum l.
Proof.
  intros NE P. destruct l as [|x l]; [congruence|]. rewrite rsum_cons.
  assert (0 < x) by (apply P; left; reflexivity).
  assert (0 <= rsum l); [|lra]. apply nonneg_rsum. intros y I. apply Rlt_le, P. right; exact I.
Qed.

Lemma randomProbabilities_ok n draws :
  (0 < n)%nat -> length draws = n -> (forall d, In d draws -> (1 <= d <= 10)%Z) ->
  exists p : list R, randomProbabilities (PyInt (Z.of_nat n)) draws = Ok p /\
    length p = n /\ (forall x, In x p -> 0 < x) /\ rsum p = 1.
Proof.
  intros Hn L D. unfold randomProbabilities.
  destruct (Z.leb_spec (Z.of_nat n) 0); [lia|].
  eexists; split; [reflexivity|].
  assert (P : forall x, In x (map IZR draws) -> 0 < x).
  { intros x I. apply in_map_iff in I as [d [<- I]]. apply IZR_lt. specialize (D d I). lia. }
  assert (S : 0 < rsum (map IZR draws)).
  { apply rsum_pos; [|exact P]. intros E. apply map_eq_nil in E. subst draws. cbn in L. lia. }
  split; [rewrite normalize_length, map_length; exact L|]. split.
  - intros x I. unfold normalize in I. apply in_map_iff in I as [y [<- I]]. nR.
    apply Rdiv_lt_0_compat; [apply P; exact I|exact S].
  - apply normalize_sum. nR. lra.
Qed.

(** ** checkProbabilities *)
Lemma Int_part_spec x : IZR (Int_part x) <= x < IZR (Int_part x) + 1.
Proof. destruct (base_Int_part x). lra. Qed.
Lemma Int_part_uniq x z : IZR z <= x < IZR z + 1 -> Int_part x = z.
Proof.
  intros B. pose proof (Int_part_spec x) as S.
  assert (IZR z < IZR (Int_part x + 1)) by (rewrite plus_IZR; lra).
  assert (IZR (Int_part x) < IZR (z + 1)) by (rewrite plus_IZR; lra).
  apply lt_IZR in H, H0. lia.
Qed.

Lemma round3_near x z : Z.even z = true ->
  (round3 x = z <-> IZR z - /2 <= 1000 * x <= IZR z + /2).
Proof.
  intros Ev. unfold round3. nR. set (y := 1000 * x). pose proof (Int_part_spec y) as B.
  set (f := Int_part y) in *.
  destruct (nltb (2 * (y - IZR f)) 1) eqn:E1; [apply Rltb_true in E1|apply Rltb_false in E1].
  { split; [intros ->; lra|]. intros C.
    assert (IZR f < IZR (z + 1)) by (rewrite plus_IZR; lra).
    assert (IZR (z - 1) < IZR f) by (rewrite minus_IZR; lra).
    apply lt_IZR in H, H0. lia. }
  destruct (nltb 1 (2 * (y - IZR f))) eqn:E2; [apply Rltb_true in E2|apply Rltb_false in E2].
  { split; [intros <-; rewrite plus_IZR; lra|]. intros C.
    assert (IZR f < IZR z) by lra.
    assert (IZR (z - 2) < IZR f) by (rewrite minus_IZR; lra).
    apply lt_IZR in H, H0. lia. }
  destruct (Z.even f) eqn:E3.
  { split; [intros ->; lra|]. intros C.
    assert (IZR f < IZR (z + 1)) by (rewrite plus_IZR; lra).
    assert (IZR (z - 2) < IZR f) by (rewrite minus_IZR; lra).
    apply lt_IZR in H, H0. assert (f = z \/ f = z - 1)%Z as [->| ->] by lia; [reflexivity|].
    rewrite Z.even_sub, Ev in E3. discriminate. }
  { split; [intros <-; rewrite plus_IZR; lra|]. intros C.
    assert (IZR f < IZR (z + 1)) by (rewrite plus_IZR; lra).
    assert (IZR (z - 2) < IZR f) by (rewrite minus_IZR; lra).
    apply lt_IZR in H, H0. assert (f = z \/ f = z - 1)%Z as [->| ->] by lia; [congruence|lia]. }
Qed.

Lemma checkProbabilities_iff (l : list R) :
  checkProbabilities l = true <-> Rabs (rsum l - 1) <= 1/2000 \/ Rabs (rsum l) <= 1/2000.
Proof.
  unfold checkProbabilities. toR. rewrite orb_true_iff, !Z.eqb_eq.
  rewrite (round3_near _ 1000 eq_refl), (round3_near _ 0 eq_refl).
  split; (intros [A|A]; [left|right]).
  - apply Rabs_le; lra.
  - apply Rabs_le; lra.
  - pose proof (Rle_abs (rsum l - 1)). pose proof (Rle_abs (- (rsum l - 1))). rewrite Rabs_Ropp in *. lra.
  - pose proof (Rle_abs (rsum l)). pose proof (Rle_abs (- rsum l)). rewrite Rabs_Ropp in *. lra.
Qed.

(** ** hoeffdingBound *)
Lemma nabs_Rabs (x : R) : nabs x = Rabs x.
Proof.
  unfold nabs. nR. destruct (nltb x 0) eqn:E; [apply Rltb_true in E|apply Rltb_false in E].
  - rewrite Rabs_left by exact E. lra.
  - rewrite Rabs_right by lra. reflexivity.
Qed.

Lemma hoeffding_iff f1 m1 f2 m2 alpha :
  hoeffdingBound f1 m1 f2 m2 alpha = true <->
  m1 = 0 \/ m2 = 0 \/
  Rabs (f1 / m1 - f2 / m2) < (sqrt (1 / m1) + sqrt (1 / m2)) * sqrt (1 / 2 * ln (2 / alpha)).
Proof.
  unfold hoeffdingBound. nR. destruct (Reqb (m1 * m2) 0) eqn:E; [apply Reqb_true in E|apply Reqb_false in E].
  - split; [intros _|reflexivity]. apply Rmult_integral in E as [E|E]; auto.
  - rewrite Rltb_true, nabs_Rabs. split; [auto|]. intros [->|[->|A]]; [lra|lra|exact A].
Qed.

Lemma hoeffding_sym f1 m1 f2 m2 alpha :
  hoeffdingBound f1 m1 f2 m2 alpha = hoeffdingBound f2 m2 f1 m1 alpha.
Proof.
  apply eq_true_iff_eq. rewrite !hoeffding_iff.
  replace (f2 / m2 - f1 / m1) with (- (f1 / m1 - f2 / m2)) by ring. rewrite Rabs_Ropp.
  rewrite (Rplus_comm (sqrt (1 / m2))). tauto.
Qed.

Lemma hoeffding_equal f1 m1 f2 m2 alpha :
  0 < m1 -> 0 < m2 -> f1 / m1 = f2 / m2 -> 0 < alpha < 2 ->
  hoeffdingBound f1 m1 f2 m2 alpha = true.
Proof.
  intros P1 P2 E A. apply hoeffding_iff. right; right. rewrite E, Rminus_diag_eq, Rabs_R0 by reflexivity.
  assert (0 < sqrt (1 / m1)) by (apply sqrt_lt_R0, Rdiv_lt_0_compat; lra).
  assert (0 < sqrt (1 / m2)) by (apply sqrt_lt_R0, Rdiv_lt_0_compat; lra).
  assert (0 < ln (2 / alpha)).
  { rewrite <- ln_1. apply ln_increasing; [lra|]. apply Rmult_lt_reg_r with alpha; [lra|].
    unfold Rdiv; rewrite Rmult_assoc, Rinv_l by lra; lra. }
  assert (0 < sqrt (1 / 2 * ln (2 / alpha))) by (apply sqrt_lt_R0; lra).
  apply Rmult_lt_0_compat; lra.
Qed.

Lemma hoeffding_mono f1 m1 f2 m2 a b :
  0 < m1 -> 0 < m2 -> 0 < b -> b <= a -> a < 2 ->
  hoeffdingBound f1 m1 f2 m2 a = true -> hoeffdingBound f1 m1 f2 m2 b = true.
Proof.
  intros P1 P2 B L A. rewrite !hoeffding_iff. intros [E|[E|E]]; [auto|auto|]. right; right.
  eapply Rlt_le_trans; [exact E|]. apply Rmult_le_compat_l.
  { apply Rplus_le_le_0_compat; apply sqrt_pos. }
  apply sqrt_le_1_alt. apply Rmult_le_compat_l; [lra|].
  assert (2 / a <= 2 / b).
  { unfold Rdiv; apply Rmult_le_compat_l; [lra|]. apply Rinv_le_contravar; lra. }
  destruct (Req_dec (2 / a) (2 / b)) as [->|NE]; [lra|]. apply Rlt_le, ln_increasing; [|lra].
  apply Rdiv_lt_0_compat; lra.
Qed.
