(** Lemmas for C145: the main loop of learning and models that no round moves. *)
From Coq Require Import String ZArith Bool Reals List Lia Lra.
From Verif Require Import Num Py SNum SPath LSum MSet MModels MLik MBW LFB LEM SBW LBW LBWSet SLik SExp SGain LBWLoop.
Import ListNotations.
Local Open Scope R_scope.

Lemma moved_sqdist n p q : moved n p q = sqdist n p q.
Proof. reflexivity. Qed.
Lemma moved_nonneg n p q : 0 <= moved n p q.
Proof. apply sqdist_nonneg. Qed.
Lemma Sum_nonneg_zero n f : (forall i, (i < n)%nat -> 0 <= f i) -> Sum n f <= 0 -> forall i, (i < n)%nat -> f i = 0.
Proof.
  induction n as [|n IH]; intros N Z i Hi; [lia|]. rewrite Sum_S in Z.
  assert (0 <= Sum n f) by (apply Sum_nonneg; intros; apply N; lia). pose proof (N n (Nat.lt_succ_diag_r n)).
  destruct (Nat.eq_dec i n) as [-> |Ne]; [lra|]. apply IH; [intros; apply N; lia|lra|lia].
Qed.
Lemma Sum_one_le n f i : (forall j, (j < n)%nat -> 0 <= f j) -> (i < n)%nat -> f i <= Sum n f.
Proof.
  induction n as [|n IH]; intros N Hi; [lia|]. rewrite Sum_S. assert (0 <= Sum n f) by (apply Sum_nonneg; intros; apply N; lia).
  pose proof (N n (Nat.lt_succ_diag_r n)). destruct (Nat.eq_dec i n) as [-> |Ne]; [lra|].
  assert (f i <= Sum n f) by (apply IH; [intros; apply N; lia|lia]). lra.
Qed.
Lemma moved_zero n p q : (forall j, (j < n)%nat -> 0 <= p j) -> (forall j, (j < n)%nat -> 0 <= q j) -> moved n p q <= 0 ->
  forall j, (j < n)%nat -> q j = p j.
Proof.
  intros Np Nq Z j Hj. unfold moved in Z.
  assert (E : (sqrt (q j) - sqrt (p j)) ^ 2 = 0) by (apply (Sum_nonneg_zero n (fun j => (sqrt (q j) - sqrt (p j)) ^ 2)); auto; intros; apply pow2_ge_0).
  apply sqrt_inj; auto. nra.
Qed.
Lemma mat_ext (n : nat) (a b : list (list R)) : square n a -> square n b ->
  (forall s s', (s < n)%nat -> (s' < n)%nat -> matR a s s' = matR b s s') -> a = b.
Proof.
  intros [L1 R1] [L2 R2] H. apply (nth_ext _ _ [] []); [congruence|]. intros s Hs. rewrite L1 in Hs.
  apply (nth_ext _ _ 0 0); [rewrite R1, R2; [reflexivity|apply nth_In; lia|apply nth_In; lia]|].
  intros s' Hs'. rewrite R1 in Hs' by (apply nth_In; lia). exact (H s s' Hs Hs').
Qed.

Section Loop.
  Context {M : Type} (round : M -> res (M * R)) (eps : R) (change : M -> M -> R).

  Lemma rounds_inv (I : M -> Prop) : (forall m m' ll, I m -> round m = Ok (m', ll) -> I m') ->
    forall k m m' c, rounds round change k m m' c -> I m -> I m'.
  Proof. intros HI k m m' c H. induction H; intros Im; [exact Im|]. apply IHrounds. eapply HI; eassumption. Qed.
  Lemma rounds_snoc k m m1 m2 ll c : rounds round change k m m1 c -> round m1 = Ok (m2, ll) ->
    rounds round change (S k) m m2 (c + change m1 m2).
  Proof.
    intros H E. revert E. induction H; intros E.
    - rewrite Rplus_0_l. rewrite <- (Rplus_0_r (change m m2)). eapply rounds_S; [exact E|constructor].
    - rewrite Rplus_assoc. eapply rounds_S; [eassumption|]. apply IHrounds. exact E.
  Qed.
  (** the sum of the moves is at most the improvement *)
  Lemma rounds_gain (I : M -> Prop) (L : M -> R) :
    (forall m m' ll, I m -> round m = Ok (m', ll) -> I m' /\ L m + change m m' <= L m') ->
    forall k m m' c, rounds round change k m m' c -> I m -> I m' /\ c <= L m' - L m.
  Proof.
    intros HI k m m' c H. induction H; intros Im; [split; [exact Im|lra]|].
    destruct (HI m m1 ll Im H) as [I1 G]. destruct (IHrounds I1). split; [assumption|]. lra.
  Qed.
  (** the loop is a sequence of rounds *)
  Lemma bw_loop_rounds : forall fuel prev c0 m m' c ll b, bw_loop round eps fuel prev c0 m = Ok (m', c, ll, b) ->
    exists k t, rounds round change k m m' t /\ c = (c0 + k)%nat.
  Proof.
    induction fuel as [|fuel IH]; intros prev c0 m m' c ll b E; cbn in E.
    - inversion E; subst. exists O, 0. split; [constructor|lia].
    - destruct (round m) as [[m1 l1]|] eqn:Er; [|discriminate]. cbn in E.
      destruct (match prev with None => false | Some p => _ end).
      + inversion E; subst. exists 1%nat, (change m m' + 0). split; [|lia]. eapply rounds_S; [exact Er|constructor].
      + apply IH in E. destruct E as (k & t & H & ->). exists (S k), (change m m1 + t). split; [|lia]. eapply rounds_S; eassumption.
  Qed.
  (** when it stops by itself, the last two rounds *)
  Lemma bw_loop_last : forall fuel prev c0 m m' c ll, bw_loop round eps fuel prev c0 m = Ok (m', c, ll, true) ->
    forall m0 k t, (match prev with None => m0 = m /\ k = O | Some p => exists x k' t', rounds round change k' m0 x t' /\ k = S k' /\ round x = Ok (m, p) end) ->
    rounds round change k m0 m t -> c0 = k ->
    exists k1 t1 m1 m2 l1 l2, rounds round change k1 m0 m1 t1 /\ round m1 = Ok (m2, l1) /\ round m2 = Ok (m', l2) /\
      ll = Some l2 /\ l2 - l1 < eps /\ c = (k1 + 2)%nat.
  Proof.
    induction fuel as [|fuel IH]; intros prev c0 m m' c ll E m0 k t Hp Hr Hk; cbn in E; [discriminate|].
    destruct (round m) as [[m1 l1]|] eqn:Er; [|discriminate]. cbn in E. destruct prev as [p|].
    - destruct Hp as (x & k' & t' & H1 & H2 & H3). change ((if nltb (nsub l1 p) eps then Ok (m1, Datatypes.S c0, Some l1, true) else bw_loop round eps fuel (Some l1) (Datatypes.S c0) m1) = Ok (m', c, ll, true)) in E.
      destruct (nltb (nsub l1 p) eps) eqn:S.
      + inversion E; subst. exists k', t', x, m, p, l1. apply Rltb_true in S.
        split; [exact H1|]. split; [exact H3|]. split; [exact Er|]. split; [reflexivity|]. split; [exact S|]. lia.
      + apply (IH _ _ _ _ _ _ E m0 (Datatypes.S k) (t + change m m1)); [|eapply rounds_snoc; eassumption|lia].
        exists m, k, t. auto.
    - destruct Hp as [-> ->]. subst. apply (IH _ _ _ _ _ _ E m 1%nat (t + change m m1)); [|eapply rounds_snoc; eassumption|reflexivity].
      exists m, O, t. auto.
  Qed.
  Lemma bw_stops (I : M -> Prop) (L : M -> R) :
    (forall m m' ll, I m -> round m = Ok (m', ll) -> I m' /\ ll = L m /\ L m + change m m' <= L m') ->
    forall fuel m m' c ll, I m -> bw_loop round eps fuel None 0 m = Ok (m', c, ll, true) ->
    exists k t m1 m2 l1 l2, rounds round change k m m1 t /\ round m1 = Ok (m2, l1) /\ round m2 = Ok (m', l2) /\
      c = (k + 2)%nat /\ change m1 m2 < eps.
  Proof.
    intros HI fuel m m' c ll Im E.
    destruct (bw_loop_last fuel None 0 m m' c ll E m O 0 (conj eq_refl eq_refl) (rounds_0 _ _ m) eq_refl) as (k & t & m1 & m2 & l1 & l2 & H1 & H2 & H3 & _ & H5 & H6).
    exists k, t, m1, m2, l1, l2. repeat (split; [assumption|]).
    assert (I1 : I m1) by (apply (rounds_inv I) with (1 := fun a b l X Y => proj1 (HI a b l X Y)) (2 := H1); exact Im).
    destruct (HI m1 m2 l1 I1 H2) as (I2 & -> & G). destruct (HI m2 m' l2 I2 H3) as (_ & -> & _). lra.
  Qed.
End Loop.
