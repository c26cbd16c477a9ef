(** Rows moved in a straight line; slopes of the rows re-estimated by a round. *)
From Coq Require Import String ZArith Bool Reals List Lia Lra Psatz.
From Verif Require Import Num Py SNum SPath LSum MSet MModels MLik MBW LFB LEM SBW LBW LBWSet LBWMC LLik LEMGen SGain LGain SGrad LGrad.
Import ListNotations.
Local Open Scope R_scope.

Lemma nth_map_combine {A B C} (h : A * B -> C) l k i da db dc : length k = length l -> (i < length l)%nat ->
  nth i (map h (combine l k)) dc = h (nth i l da, nth i k db).
Proof.
  intros L Hi. rewrite (nth_indep _ dc (h (da, db))) by (rewrite map_length, combine_length; lia).
  rewrite map_nth. rewrite combine_nth by auto. reflexivity.
Qed.
Lemma mixv_length t p q : length q = length p -> length (mixv t p q) = length p.
Proof. intros L. unfold mixv. rewrite map_length, combine_length. lia. Qed.
Lemma mixv_get t p q j : length q = length p -> vecR (mixv t p q) j = mix t (vecR p j) (vecR q j).
Proof.
  intros L. unfold vecR. destruct (Nat.lt_ge_cases j (length p)) as [Hj|Hj].
  - unfold mixv. rewrite (nth_map_combine _ _ _ _ 0 0) by auto. reflexivity.
  - rewrite !nth_overflow by (rewrite ?mixv_length; lia). unfold mix. ring.
Qed.
Lemma mixm_length t p q : length q = length p -> length (mixm t p q) = length p.
Proof. intros L. unfold mixm. rewrite map_length, combine_length. lia. Qed.
Lemma Forall2_len {A B} (Q : A -> B -> Prop) l k : Forall2 Q l k -> length k = length l.
Proof. induction 1; cbn; congruence. Qed.
Lemma Forall2_nth {A B} (Q : A -> B -> Prop) l k da db : Forall2 Q l k -> forall i, (i < length l)%nat -> Q (nth i l da) (nth i k db).
Proof. induction 1; intros [|i] Hi; cbn in *; try lia; auto. apply IHForall2. lia. Qed.
Lemma Forall2_of_nth {A B} (Q : A -> B -> Prop) l k da db : length k = length l -> (forall i, (i < length l)%nat -> Q (nth i l da) (nth i k db)) -> Forall2 Q l k.
Proof.
  revert k. induction l as [|x l IH]; intros [|y k] L H; try discriminate; constructor.
  - apply (H O). cbn; lia.
  - apply IH; [cbn in L; lia|]. intros i Hi. apply (H (Datatypes.S i)). cbn; lia.
Qed.
Lemma mixm_get t p q s j : Forall2 keeps p q -> matR (mixm t p q) s j = mix t (matR p s j) (matR q s j).
Proof.
  intros F. pose proof (Forall2_len _ _ _ F) as L. unfold matR. destruct (Nat.lt_ge_cases s (length p)) as [Hs|Hs].
  - unfold mixm. rewrite (nth_map_combine _ _ _ _ [] []) by auto. cbn [fst snd]. apply (mixv_get t (nth s p []) (nth s q []) j).
    apply (Forall2_nth _ _ _ [] [] F s Hs).
  - rewrite (nth_overflow (mixm t p q)) by (rewrite mixm_length; lia). rewrite (nth_overflow p), (nth_overflow q) by lia. unfold mix. destruct j; cbn; ring.
Qed.
Lemma keeps_mat p q s j : Forall2 keeps p q -> matR p s j = 0 -> matR q s j = 0.
Proof.
  intros F Z. pose proof (Forall2_len _ _ _ F) as L. destruct (Nat.lt_ge_cases s (length p)) as [Hs|Hs].
  - apply (Forall2_nth _ _ _ [] [] F s Hs). exact Z.
  - unfold matR. rewrite (nth_overflow q) by lia. destruct j; reflexivity.
Qed.
Lemma within_keeps p q : Forall2 row_within p q -> Forall2 keeps p q.
Proof. induction 1 as [|? ? ? ? [H _]]; constructor; assumption. Qed.
Lemma keeps_sum n p q s : Forall2 row_within p q -> (forall r, In r p -> length r = n) -> (s < length p)%nat -> Sum n (matR q s) = Sum n (matR p s).
Proof.
  intros F R1 Hs. destruct (Forall2_nth _ _ _ [] [] F s Hs) as [[L _] E]. rewrite !rsum_nth in E.
  rewrite L, R1 in E by (apply nth_In; exact Hs). exact E.
Qed.
Lemma keeps_rows n p q : Forall2 keeps p q -> (forall r, In r p -> length r = n) -> forall r, In r q -> length r = n.
Proof.
  intros F H. induction F as [|x y p q [Lxy _] F IH]; intros r I; [destruct I|]. destruct I as [<-|I].
  - rewrite Lxy. apply H. left; reflexivity.
  - apply IH; [|exact I]. intros; apply H; right; assumption.
Qed.
Lemma keeps_square n p q : Forall2 keeps p q -> square n p -> square n q.
Proof. intros F [L H]. split; [rewrite (Forall2_len _ _ _ F); exact L|apply (keeps_rows n p q F H)]. Qed.
Lemma mixm_rows n t p q : Forall2 keeps p q -> (forall r, In r p -> length r = n) -> forall r, In r (mixm t p q) -> length r = n.
Proof.
  intros F H r I. unfold mixm in I. apply in_map_iff in I. destruct I as [[x y] [<- I]]. cbn [fst snd].
  apply (In_nth _ _ ([], [])) in I. destruct I as [i [Hi E]]. rewrite combine_length in Hi. rewrite combine_nth in E by (rewrite (Forall2_len _ _ _ F); reflexivity).
  inversion E. rewrite mixv_length; [apply H, nth_In; lia|]. apply (Forall2_nth _ _ _ [] [] F). lia.
Qed.
Lemma keeps_self p : nonneg p -> row_within p p.
Proof. intros N. repeat split; auto. Qed.

(** ** Slopes of a row *)
Definition row_slope (n : nat) (N p q : nat -> R) : R := Sum n (fun j => N j * ((q j - p j) / p j)).

(** a row that the re-estimation leaves alone *)
Lemma row_flat n D N p q : (forall j, (j < n)%nat -> N j = D * p j) -> (forall j, (j < n)%nat -> p j = 0 -> q j = 0) -> Sum n q = Sum n p ->
  row_slope n N p q = 0.
Proof.
  intros HN Hq E. unfold row_slope. rewrite (Sum_ext n _ (fun j => D * (q j - p j))).
  - rewrite Sum_scal_l, Sum_minus, E. ring.
  - intros j Hj. rewrite HN by exact Hj. destruct (Req_dec (p j) 0) as [Z|Z]; [rewrite (Hq j Hj Z), Z; unfold Rdiv; ring|field; exact Z].
Qed.
Lemma est_fixed n D N p : D = Sum n N -> (forall j, (j < n)%nat -> 0 <= N j) -> (forall j, (j < n)%nat -> est D N p j = p j) ->
  forall j, (j < n)%nat -> N j = D * p j.
Proof.
  intros E HN H j Hj. specialize (H j Hj). unfold est in H. destruct (Req_EM_T D 0) as [Z|Z].
  - rewrite Z, Rmult_0_l. apply (Sum_nonneg_zero n N); auto. lra.
  - rewrite <- H. field. exact Z.
Qed.
(** the slope towards the re-estimated row *)
Lemma row_ascent n D N p : D = Sum n N -> (forall j, (j < n)%nat -> 0 <= N j) -> (forall j, (j < n)%nat -> 0 <= p j) ->
  (forall j, (j < n)%nat -> p j = 0 -> N j = 0) -> (D <> 0 -> Sum n p = 1) ->
  0 <= row_slope n N p (est D N p) /\ (row_slope n N p (est D N p) = 0 -> forall j, (j < n)%nat -> est D N p j = p j).
Proof.
  intros E HN Hp HZ HS. destruct (Req_dec D 0) as [Z|Z].
  - assert (Q : forall j, est D N p j = p j) by (intros j; unfold est; destruct (Req_EM_T D 0); [reflexivity|contradiction]).
    split; [|intros; apply Q]. unfold row_slope. rewrite Sum_zero_ext; [lra|]. intros j Hj. rewrite Q. unfold Rdiv; ring.
  - assert (Dp : 0 < D) by (assert (0 <= D) by (rewrite E; apply Sum_nonneg; exact HN); lra).
    assert (Q : row_slope n N p (est D N p) = D * Sum n (fun j => (est D N p j - p j) ^ 2 / p j)).
    { assert (S1 : Sum n (fun j => est D N p j - p j) = 0).
      { rewrite Sum_minus, (est_sum n D N p E), (HS Z). destruct (Req_EM_T D 0); [contradiction|ring]. }
      replace (Sum n (fun j => (est D N p j - p j) ^ 2 / p j)) with (Sum n (fun j => (est D N p j - p j) ^ 2 / p j) + Sum n (fun j => est D N p j - p j)) by lra.
      rewrite <- Sum_plus, <- Sum_scal_l. apply Sum_ext. intros j Hj. unfold est. destruct (Req_EM_T D 0); [contradiction|].
      destruct (Req_dec (p j) 0) as [Zj|Zj]; [rewrite (HZ j Hj Zj), Zj; unfold Rdiv; ring|field; auto]. }
    assert (NN : forall j, (j < n)%nat -> 0 <= (est D N p j - p j) ^ 2 / p j).
    { intros j Hj. pose proof (Hp j Hj). destruct (Req_dec (p j) 0) as [Zj|Zj].
      - unfold est. destruct (Req_EM_T D 0); [contradiction|]. rewrite (HZ j Hj Zj), Zj. unfold Rdiv. right. ring.
      - apply Rmult_le_pos; [apply pow2_ge_0|]. apply Rlt_le, Rinv_0_lt_compat. lra. }
    rewrite Q. split; [apply Rmult_le_pos; [lra|apply Sum_nonneg; exact NN]|].
    intros Q0 j Hj. apply Rmult_integral in Q0. destruct Q0 as [Q0|Q0]; [lra|]. apply Req_le in Q0.
    pose proof (Sum_nonneg_zero n _ NN Q0 j Hj) as T. cbn beta in T.
    destruct (Req_dec (p j) 0) as [Zj|Zj].
    + unfold est. destruct (Req_EM_T D 0); [contradiction|]. rewrite (HZ j Hj Zj), Zj. unfold Rdiv; ring.
    + apply Rmult_integral in T. destruct T as [T|T]; [|apply Rinv_neq_0_compat in Zj; contradiction]. nra.
Qed.

Section Const.
  Context {S O : Type} (n : nat) (set : list (S * Z)) (obs : S -> list O) (f : S -> nat -> R).
  Variables (a : R -> nat -> R) (A : R -> O -> nat -> nat -> R) (b : R -> O -> nat -> R).
  Notation W := (ew obs (A 0) (b 0)).

  Lemma slope_trans_const (r : nat -> nat -> R) s s' :
    slope_trans n set obs f a A b (fun _ => r) s s' = XI n set (a 0) W f (ones1 W) s s' * r s s'.
  Proof.
    unfold slope_trans, XI. rewrite <- psum_scal_r. apply psum_ext. intros x t I P. unfold ones1. rewrite ew_length.
    rewrite (map_ext (fun _ : O => r s s') (fun o : O => 1 * r s s')) by (intros; ring). rewrite wsum_scal_r.
    replace (map (fun _ : O => 1) (obs x)) with (repeat 1 (length (obs x))); [ring|]. clear. induction (obs x); cbn; congruence.
  Qed.
  Lemma slope_emit_zero s : slope_emit n set obs f a A b (fun _ _ => 0) s = 0.
  Proof.
    unfold slope_emit. apply psum_zero. intros x t I P.
    rewrite (map_ext (fun _ : O => 0) (fun o : O => 0 * 0)) by (intros; ring). rewrite wsum_scal_r. ring.
  Qed.
  Lemma slope_ini_zero : slope_ini n set obs f a A b (fun _ => 0) = 0.
  Proof. unfold slope_ini. apply Sum_zero_ext. intros; ring. Qed.
End Const.
