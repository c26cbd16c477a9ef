(** Lemmas on finite sums of reals. *)
From Coq Require Import Reals List Lra Lia Bool Arith Permutation FunctionalExtensionality.
From Verif Require Import Num SNum.
Import ListNotations.
Local Open Scope R_scope.

Ltac nR := cbn [n0 n1 nadd nmul nsub ndiv nleb neqb nofZ nfloor nln nexp nsqrt npi RNum RTrans] in *.

Ltac toR := change (@nsum R RNum) with rsum in *; nR.

Lemma Rleb_true x y : Rleb x y = true <-> x <= y.
Proof. unfold Rleb; destruct (Rle_dec x y); split; intros; try lra; discriminate. Qed.
Lemma Rleb_false x y : Rleb x y = false <-> y < x.
Proof. unfold Rleb; destruct (Rle_dec x y); split; intros; try lra; discriminate. Qed.
Lemma Reqb_true x y : Reqb x y = true <-> x = y.
Proof. unfold Reqb; destruct (Req_EM_T x y); split; intros; try lra; discriminate. Qed.
Lemma Reqb_false x y : Reqb x y = false <-> x <> y.
Proof. unfold Reqb; destruct (Req_EM_T x y); split; intros; try lra; try discriminate; congruence. Qed.
Lemma Rltb_true (x y : R) : nltb x y = true <-> x < y.
Proof. unfold nltb; nR; rewrite andb_true_iff, negb_true_iff, Rleb_true, Reqb_false; split; [intros [? ?]; lra|intros; split; lra]. Qed.
Lemma Rltb_false (x y : R) : nltb x y = false <-> y <= x.
Proof. rewrite <- not_true_iff_false, Rltb_true. lra. Qed.
Lemma Rltb_leb (x y : R) : nltb x y = negb (Rleb y x).
Proof. destruct (nltb x y) eqn:E; [apply Rltb_true in E|apply Rltb_false in E]; unfold Rleb; destruct (Rle_dec y x); try lra; reflexivity. Qed.

Lemma nsum_rsum (l : list R) : nsum l = rsum l.
Proof. reflexivity. Qed.

Lemma rsum_nil : rsum [] = 0.
Proof. reflexivity. Qed.
Lemma rsum_cons x l : rsum (x :: l) = x + rsum l.
Proof. reflexivity. Qed.
Lemma rsum_app l m : rsum (l ++ m) = rsum l + rsum m.
Proof. induction l; cbn [app]; rewrite ?rsum_nil, ?rsum_cons; [lra|]. rewrite IHl; lra. Qed.

Section L.
Context {A : Type}.
Implicit Types (l : list A) (f g : A -> R).

Lemma sumL_nil f : sumL [] f = 0.
Proof. reflexivity. Qed.
Lemma sumL_cons a l f : sumL (a :: l) f = f a + sumL l f.
Proof. reflexivity. Qed.
Lemma sumL_app l m f : sumL (l ++ m) f = sumL l f + sumL m f.
Proof. unfold sumL; rewrite map_app, rsum_app; reflexivity. Qed.
Lemma sumL_ext l f g : (forall a, In a l -> f a = g a) -> sumL l f = sumL l g.
Proof. intros E; unfold sumL; f_equal; apply map_ext_in; exact E. Qed.
Lemma sumL_plus l f g : sumL l (fun a => f a + g a) = sumL l f + sumL l g.
Proof. induction l; [cbn; unfold sumL; cbn; lra|]. rewrite !sumL_cons, IHl; lra. Qed.
Lemma sumL_minus l f g : sumL l (fun a => f a - g a) = sumL l f - sumL l g.
Proof. induction l; [unfold sumL; cbn; lra|]. rewrite !sumL_cons, IHl; lra. Qed.
Lemma sumL_scal_l l c f : sumL l (fun a => c * f a) = c * sumL l f.
Proof. induction l; [unfold sumL; cbn; lra|]. rewrite !sumL_cons, IHl; lra. Qed.
Lemma sumL_scal_r l c f : sumL l (fun a => f a * c) = sumL l f * c.
Proof. induction l; [unfold sumL; cbn; lra|]. rewrite !sumL_cons, IHl; lra. Qed.
Lemma sumL_div_r l c f : sumL l (fun a => f a / c) = sumL l f / c.
Proof. unfold Rdiv; apply sumL_scal_r. Qed.
Lemma sumL_zero l : sumL l (fun _ => 0) = 0.
Proof. induction l; [reflexivity|]. rewrite sumL_cons, IHl; lra. Qed.
Lemma sumL_zero_ext l f : (forall a, In a l -> f a = 0) -> sumL l f = 0.
Proof. intros E. rewrite (sumL_ext l f (fun _ => 0)); [apply sumL_zero|exact E]. Qed.
Lemma sumL_nonneg l f : (forall a, In a l -> 0 <= f a) -> 0 <= sumL l f.
Proof.
  induction l; intros E; [unfold sumL; cbn; lra|]. rewrite sumL_cons.
  assert (0 <= f a) by (apply E; left; reflexivity).
  assert (0 <= sumL l f) by (apply IHl; intros; apply E; right; assumption). lra.
Qed.
Lemma sumL_le l f g : (forall a, In a l -> f a <= g a) -> sumL l f <= sumL l g.
Proof.
  intros E. assert (0 <= sumL l (fun a => g a - f a)).
  { apply sumL_nonneg; intros a Ha; specialize (E a Ha); lra. }
  rewrite sumL_minus in H. lra.
Qed.
Lemma sumL_ge_term l f a : In a l -> (forall b, In b l -> 0 <= f b) -> f a <= sumL l f.
Proof.
  induction l; intros I E; [destruct I|]. rewrite sumL_cons. destruct I as [->|I].
  - assert (0 <= sumL l f) by (apply sumL_nonneg; intros; apply E; right; assumption). lra.
  - assert (0 <= f a0) by (apply E; left; reflexivity).
    assert (f a <= sumL l f) by (apply IHl; [assumption|intros; apply E; right; assumption]). lra.
Qed.
Lemma sumL_eq0 l f : (forall a, In a l -> 0 <= f a) -> sumL l f = 0 -> forall a, In a l -> f a = 0.
Proof.
  intros E Z a I. pose proof (sumL_ge_term l f a I E). pose proof (E a I). lra.
Qed.
Lemma sumL_pos_exists l f : 0 < sumL l f -> exists a, In a l /\ 0 < f a.
Proof.
  induction l; [unfold sumL; cbn; lra|]. rewrite sumL_cons. intros P.
  destruct (Rlt_dec 0 (f a)) as [L|L]; [exists a; split; [left; reflexivity|exact L]|].
  destruct IHl as [b [I B]]; [lra|]. exists b; split; [right; exact I|exact B].
Qed.
Lemma sumL_pos l f a : (forall b, In b l -> 0 <= f b) -> In a l -> 0 < f a -> 0 < sumL l f.
Proof. intros E I P. pose proof (sumL_ge_term l f a I E). lra. Qed.
Lemma sumL_filter l f (p : A -> bool) :
  sumL (filter p l) f = sumL l (fun a => if p a then f a else 0).
Proof. induction l; [reflexivity|]. cbn [filter]. rewrite sumL_cons. destruct (p a); [rewrite sumL_cons|]; rewrite IHl; lra. Qed.
Lemma sumL_const l c : sumL l (fun _ => c) = INR (length l) * c.
Proof.
  induction l; [unfold sumL; cbn; lra|]. rewrite sumL_cons, IHl.
  change (length (a :: l)) with (S (length l)). rewrite S_INR; lra.
Qed.
Lemma sumL_perm l m f : Permutation l m -> sumL l f = sumL m f.
Proof.
  induction 1; try reflexivity; rewrite ?sumL_cons in *; try lra.
Qed.
Lemma sumL_opp l f : sumL l (fun a => - f a) = - sumL l f.
Proof. induction l; [unfold sumL; cbn; lra|]. rewrite !sumL_cons, IHl; lra. Qed.
End L.

Lemma sumL_map {A B} (h : A -> B) l f : sumL (map h l) f = sumL l (fun a => f (h a)).
Proof. unfold sumL; rewrite map_map; reflexivity. Qed.
Lemma sumL_flat_map {A B} (h : A -> list B) l f :
  sumL (flat_map h l) f = sumL l (fun a => sumL (h a) f).
Proof. induction l; [reflexivity|]. cbn [flat_map]. rewrite sumL_app, sumL_cons, IHl; reflexivity. Qed.
Lemma sumL_swap {A B} (l : list A) (m : list B) f :
  sumL l (fun a => sumL m (fun b => f a b)) = sumL m (fun b => sumL l (fun a => f a b)).
Proof.
  induction l.
  - rewrite sumL_nil. symmetry; apply sumL_zero_ext; intros; reflexivity.
  - rewrite sumL_cons, IHl, <- sumL_plus. apply sumL_ext; intros; rewrite sumL_cons; reflexivity.
Qed.
Lemma rsum_sumL l : rsum l = sumL l (fun x => x).
Proof. unfold sumL; rewrite map_id; reflexivity. Qed.

(** Sums over ranges. *)
Lemma Sum_ext n f g : (forall i, (i < n)%nat -> f i = g i) -> Sum n f = Sum n g.
Proof. intros E; apply sumL_ext; intros i I; apply in_seq in I; apply E; lia. Qed.
Lemma Sum_0 f : Sum 0 f = 0.
Proof. reflexivity. Qed.
Lemma Sum_S n f : Sum (S n) f = Sum n f + f n.
Proof. unfold Sum; rewrite seq_S, sumL_app, sumL_cons, sumL_nil; cbn; lra. Qed.
Lemma Sum_S_l n f : Sum (S n) f = f O + Sum n (fun i => f (S i)).
Proof. unfold Sum; cbn [seq]; rewrite sumL_cons, <- seq_shift, sumL_map; reflexivity. Qed.
Lemma Sum_plus n f g : Sum n (fun i => f i + g i) = Sum n f + Sum n g.
Proof. apply sumL_plus. Qed.
Lemma Sum_minus n f g : Sum n (fun i => f i - g i) = Sum n f - Sum n g.
Proof. apply sumL_minus. Qed.
Lemma Sum_scal_l n c f : Sum n (fun i => c * f i) = c * Sum n f.
Proof. apply sumL_scal_l. Qed.
Lemma Sum_scal_r n c f : Sum n (fun i => f i * c) = Sum n f * c.
Proof. apply sumL_scal_r. Qed.
Lemma Sum_div_r n c f : Sum n (fun i => f i / c) = Sum n f / c.
Proof. apply sumL_div_r. Qed.
Lemma Sum_zero n : Sum n (fun _ => 0) = 0.
Proof. apply sumL_zero. Qed.
Lemma Sum_zero_ext n f : (forall i, (i < n)%nat -> f i = 0) -> Sum n f = 0.
Proof. intros E; apply sumL_zero_ext; intros i I; apply in_seq in I; apply E; lia. Qed.
Lemma Sum_nonneg n f : (forall i, (i < n)%nat -> 0 <= f i) -> 0 <= Sum n f.
Proof. intros E; apply sumL_nonneg; intros i I; apply in_seq in I; apply E; lia. Qed.
Lemma Sum_le n f g : (forall i, (i < n)%nat -> f i <= g i) -> Sum n f <= Sum n g.
Proof. intros E; apply sumL_le; intros i I; apply in_seq in I; apply E; lia. Qed.
Lemma Sum_ge_term n f i : (i < n)%nat -> (forall j, (j < n)%nat -> 0 <= f j) -> f i <= Sum n f.
Proof. intros I E; apply (sumL_ge_term (seq 0 n)); [apply in_seq; lia|]; intros j J; apply in_seq in J; apply E; lia. Qed.
Lemma Sum_eq0 n f : (forall i, (i < n)%nat -> 0 <= f i) -> Sum n f = 0 -> forall i, (i < n)%nat -> f i = 0.
Proof. intros E Z i I; pose proof (Sum_ge_term n f i I E); pose proof (E i I); lra. Qed.
Lemma Sum_pos_exists n f : 0 < Sum n f -> exists i, (i < n)%nat /\ 0 < f i.
Proof. intros P; destruct (sumL_pos_exists _ _ P) as [i [I Q]]; apply in_seq in I; exists i; split; [lia|exact Q]. Qed.
Lemma Sum_pos n f i : (forall j, (j < n)%nat -> 0 <= f j) -> (i < n)%nat -> 0 < f i -> 0 < Sum n f.
Proof. intros E I P; pose proof (Sum_ge_term n f i I E); lra. Qed.
Lemma Sum_swap n m f : Sum n (fun i => Sum m (fun j => f i j)) = Sum m (fun j => Sum n (fun i => f i j)).
Proof. apply sumL_swap. Qed.
Lemma Sum_const n c : Sum n (fun _ => c) = INR n * c.
Proof. unfold Sum; rewrite sumL_const, seq_length; reflexivity. Qed.
Lemma Sum_opp n f : Sum n (fun i => - f i) = - Sum n f.
Proof. apply sumL_opp. Qed.

Lemma Sum_indicator n k f :
  Sum n (fun i => if Nat.eqb i k then f i else 0) = if Nat.ltb k n then f k else 0.
Proof.
  induction n; [reflexivity|]. rewrite Sum_S, IHn.
  destruct (Nat.ltb_spec k n), (Nat.eqb_spec n k), (Nat.ltb_spec k (S n)); subst; try lia; lra.
Qed.
Lemma Sum_indicator_in n k f : (k < n)%nat ->
  Sum n (fun i => if Nat.eqb i k then f i else 0) = f k.
Proof. intros L; rewrite Sum_indicator; destruct (Nat.ltb_spec k n); [reflexivity|lia]. Qed.

(** Sums over lists given by their entries. *)
Lemma rsum_nth l : rsum l = Sum (length l) (fun i => nth i l 0).
Proof.
  induction l; [reflexivity|]. cbn [length]. rewrite Sum_S_l, rsum_cons, IHl. cbn [nth]. reflexivity.
Qed.
Lemma rsum_vbuild n f : rsum (vbuild n f) = Sum n f.
Proof. reflexivity. Qed.

Lemma vbuild_length {A} n (f : nat -> A) : length (vbuild n f) = n.
Proof. unfold vbuild; rewrite map_length, seq_length; reflexivity. Qed.
Lemma vbuild_nth {A} n (f : nat -> A) i d : (i < n)%nat -> nth i (vbuild n f) d = f i.
Proof.
  intros L. unfold vbuild. rewrite (nth_indep _ d (f O)) by (rewrite map_length, seq_length; exact L).
  rewrite map_nth, seq_nth by exact L. reflexivity.
Qed.
Lemma vbuild_ext {A} n (f g : nat -> A) : (forall i, (i < n)%nat -> f i = g i) -> vbuild n f = vbuild n g.
Proof. intros E; apply map_ext_in; intros i I; apply in_seq in I; apply E; lia. Qed.
Lemma vget_vbuild n (f : nat -> R) i : (i < n)%nat -> vget (vbuild n f) i = f i.
Proof. apply vbuild_nth. Qed.
Lemma mget_vbuild n m (f : nat -> nat -> R) i j : (i < n)%nat -> (j < m)%nat ->
  mget (vbuild n (fun i => vbuild m (f i))) i j = f i j.
Proof. intros I J; unfold mget. rewrite vbuild_nth by exact I. apply vget_vbuild; exact J. Qed.
Lemma vbuild_S {A} n (f : nat -> A) : vbuild (S n) f = vbuild n f ++ [f n].
Proof. unfold vbuild; rewrite seq_S, map_app; reflexivity. Qed.
Lemma vbuild_S_l {A} n (f : nat -> A) : vbuild (S n) f = f O :: vbuild n (fun i => f (S i)).
Proof. unfold vbuild; cbn [seq map]; rewrite <- seq_shift, map_map; reflexivity. Qed.
Lemma vbuild_eta (l : list R) : vbuild (length l) (fun i => vget l i) = l.
Proof.
  induction l; [reflexivity|]. cbn [length]. rewrite vbuild_S_l.
  f_equal. transitivity (vbuild (length l) (fun i => vget l i)); [|exact IHl]. reflexivity.
Qed.

Lemma zipwith_length {A B C} (f : A -> B -> C) l m :
  length (zipwith f l m) = Nat.min (length l) (length m).
Proof. revert m; induction l; intros [|b m]; cbn; auto. Qed.
Lemma ndot_Sum (l m : list R) n : length l = n -> length m = n ->
  ndot l m = Sum n (fun i => vget l i * vget m i).
Proof.
  unfold ndot. revert l m; induction n; intros [|x l] [|y m] Hl Hm; try discriminate; [reflexivity|].
  injection Hl as Hl. injection Hm as Hm. cbn [zipwith]. rewrite Sum_S_l, nsum_rsum, rsum_cons.
  rewrite <- nsum_rsum, (IHn l m Hl Hm). reflexivity.
Qed.
Lemma ndot_vbuild (l : list R) n f : length l = n -> ndot l (vbuild n f) = Sum n (fun i => vget l i * f i).
Proof.
  intros E. rewrite (ndot_Sum _ _ n) by (try exact E; apply vbuild_length).
  apply Sum_ext; intros; rewrite vget_vbuild by assumption; reflexivity.
Qed.
