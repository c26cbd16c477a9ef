(** Baum-Welch: facts shared by all model classes, and Markov chains. *)
From Coq Require Import String ZArith Bool Reals List Lia Lra Psatz.
From Verif Require Import Num Py SNum SPath LSum MSet MModels MLik MBW LFB LEM SBW.
Import ListNotations.
Local Open Scope R_scope.

(** ** Entrywise sums *)
Lemma vget_zipwith_add (l m : list R) n i : length l = n -> length m = n -> (i < n)%nat ->
  vget (vadd l m) i = vget l i + vget m i.
Proof.
  unfold vadd, vget. nR. revert m n i. induction l as [|x l IH]; intros [|y m] [|n] i Ll Lm Hi; try discriminate; try lia.
  destruct i as [|i]; [reflexivity|]. cbn. apply (IH m n); cbn in *; lia.
Qed.
Lemma vadd_length (l m : list R) n : length l = n -> length m = n -> length (vadd l m) = n.
Proof. intros. unfold vadd. rewrite zipwith_length. lia. Qed.

Lemma vsum_fold (r : list (list R)) x n : length x = n -> (forall v, In v r -> length v = n) ->
  length (fold_left vadd r x) = n /\ forall i, (i < n)%nat -> vget (fold_left vadd r x) i = vget x i + sumL r (fun v => vget v i).
Proof.
  revert x. induction r as [|v r IH]; intros x Lx Hr; cbn [fold_left].
  - split; [exact Lx|]. intros. unfold sumL; cbn. ring.
  - destruct (IH (vadd x v)) as [L E].
    + apply vadd_length; [exact Lx|apply Hr; left; reflexivity].
    + intros; apply Hr; right; assumption.
    + split; [exact L|]. intros i Hi. rewrite E by exact Hi. rewrite sumL_cons.
      rewrite (vget_zipwith_add x v n) by (auto; apply Hr; left; reflexivity). ring.
Qed.
Lemma vsum_all_spec (l : list (list R)) n : l <> [] -> (forall v, In v l -> length v = n) ->
  length (vsum_all l) = n /\ forall i, (i < n)%nat -> vget (vsum_all l) i = sumL l (fun v => vget v i).
Proof.
  intros Hl H. destruct l as [|x r]; [congruence|]. cbn [vsum_all].
  destruct (vsum_fold r x n) as [L E]; [apply H; left; reflexivity|intros; apply H; right; assumption|].
  split; [exact L|]. intros i Hi. rewrite E by exact Hi. rewrite sumL_cons. reflexivity.
Qed.

(** matrices with rows of given length *)
Definition shaped (n k : nat) (m : list (list R)) := length m = n /\ forall s, (s < n)%nat -> length (nth s m []) = k.

Lemma nth_zipwith {A B C} (f : A -> B -> C) l m i da db dc : (i < length l)%nat -> (i < length m)%nat ->
  nth i (zipwith f l m) dc = f (nth i l da) (nth i m db).
Proof. revert m i. induction l as [|x l IH]; intros [|y m] [|i] Hl Hm; cbn in *; try lia; auto. apply IH; lia. Qed.

Lemma madd_shaped l m n k : shaped n k l -> shaped n k m -> shaped n k (madd l m) /\
  forall s i, (s < n)%nat -> (i < k)%nat -> mget (madd l m) s i = mget l s i + mget m s i.
Proof.
  intros [Ll Hl] [Lm Hm].
  assert (E : forall s, (s < n)%nat -> nth s (madd l m) [] = vadd (nth s l []) (nth s m [])).
  { intros s Hs. apply nth_zipwith; lia. }
  split.
  - split; [unfold madd; rewrite zipwith_length; lia|]. intros s Hs. rewrite E by exact Hs. apply vadd_length; auto.
  - intros s i Hs Hi. unfold mget. rewrite E by exact Hs. apply (vget_zipwith_add _ _ k); auto.
Qed.
Lemma msum_fold r : forall x n k, shaped n k x -> (forall v, In v r -> shaped n k v) ->
  shaped n k (fold_left madd r x) /\ forall s i, (s < n)%nat -> (i < k)%nat ->
    mget (fold_left madd r x) s i = mget x s i + sumL r (fun v => mget v s i).
Proof.
  induction r as [|v r IH]; intros x n k Lx Hr; cbn [fold_left].
  - split; [exact Lx|]. intros. unfold sumL; cbn. ring.
  - destruct (madd_shaped x v n k Lx (Hr v (or_introl eq_refl))) as [S1 E1].
    destruct (IH (madd x v) n k S1) as [L E]; [intros; apply Hr; right; assumption|].
    split; [exact L|]. intros s i Hs Hi. rewrite E by assumption. rewrite sumL_cons, E1 by assumption. ring.
Qed.
Lemma msum_all_spec l n k : l <> [] -> (forall v, In v l -> shaped n k v) ->
  shaped n k (msum_all l) /\ forall s i, (s < n)%nat -> (i < k)%nat -> mget (msum_all l) s i = sumL l (fun v => mget v s i).
Proof.
  intros Hl H. destruct l as [|x r]; [congruence|]. cbn [msum_all].
  destruct (msum_fold r x n k) as [L E]; [apply H; left; reflexivity|intros; apply H; right; assumption|].
  split; [exact L|]. intros s i Hs Hi. rewrite E by assumption. rewrite sumL_cons. reflexivity.
Qed.
Lemma shaped_vbuild n k (f : nat -> nat -> R) : shaped n k (vbuild n (fun s => vbuild k (f s))).
Proof.
  split; [apply vbuild_length|]. intros s Hs. rewrite vbuild_nth by exact Hs. apply vbuild_length.
Qed.

(** ** Workers *)
Lemma mmap_ok {A B} (f : A -> res B) (g : A -> B) l : (forall a, In a l -> f a = Ok (g a)) -> mmap f l = Ok (map g l).
Proof.
  induction l as [|a l IH]; intros E; [reflexivity|]. cbn. rewrite (E a) by (left; reflexivity). cbn.
  rewrite IH by (intros; apply E; right; assumption). reflexivity.
Qed.

(** the results of the workers that are not False *)
Definition goods {S T} (work : S -> Z -> option T) (set : list (S * Z)) : list T :=
  flat_map (fun st => match work (fst st) (snd st) with Some x => [x] | None => [] end) set.

Lemma unwrap_run {S T} p (work : S -> Z -> option T) set temp :
  unwrap (runProcesses p work set) = Ok temp -> temp = goods work set.
Proof.
  unfold runProcesses, unwrap, goods. destruct (1 <? p)%nat.
  - revert temp. induction set as [|[s t] set IH]; intros temp; cbn; [congruence|].
    destruct (work s t) as [x|]; cbn; [|apply IH].
    intros H. destruct (mmap _ _) as [r|] eqn:E; cbn in H; [|discriminate]. inversion H. subst. f_equal. apply IH. reflexivity.
  - revert temp. induction set as [|[s t] set IH]; intros temp; cbn; [congruence|].
    destruct (work s t) as [x|]; cbn; [|discriminate].
    intros H. destruct (mmap _ _) as [r|] eqn:E; cbn in H; [|discriminate]. inversion H. subst. f_equal. apply IH. reflexivity.
Qed.
Lemma unwrap_run_many {S T} p (work : S -> Z -> option T) set : (1 < p)%nat ->
  unwrap (runProcesses p work set) = Ok (goods work set).
Proof.
  intros Hp. unfold runProcesses, unwrap, goods. apply Nat.ltb_lt in Hp. rewrite Hp. clear Hp.
  induction set as [|[s t] set IH]; cbn; [reflexivity|].
  destruct (work s t) as [x|]; cbn; [|exact IH]. rewrite IH. reflexivity.
Qed.

(** sums over the good results *)
Lemma sumL_goods {S T} (work : S -> Z -> option T) set (F : T -> R) :
  sumL (goods work set) F = sumL set (fun st => match work (fst st) (snd st) with Some x => F x | None => 0 end).
Proof.
  unfold goods. rewrite sumL_flat_map. apply sumL_ext. intros st _. destruct (work _ _); unfold sumL; cbn; ring.
Qed.
Lemma In_goods {S T} (work : S -> Z -> option T) set x : In x (goods work set) <-> exists st, In st set /\ work (fst st) (snd st) = Some x.
Proof.
  unfold goods. rewrite in_flat_map. split; intros [st [I H]]; exists st; (split; [exact I|]).
  - destruct (work _ _); [|destruct H]. destruct H as [->|[]]. reflexivity.
  - rewrite H. left; reflexivity.
Qed.

(** ** Re-estimated rows *)
Definition est (D : R) (N p : nat -> R) (j : nat) : R := if Req_EM_T D 0 then p j else N j / D.

Lemma new_row_get n (den : R) num old j : (j < n)%nat ->
  vget (new_row n den num old) j = est den (vget num) (vget old) j.
Proof.
  intros Hj. unfold new_row, est. nR. unfold Reqb. destruct (Req_EM_T den 0).
  - rewrite vget_vbuild by exact Hj. nR. field.
  - rewrite vget_vbuild by exact Hj. reflexivity.
Qed.
Lemma new_matrix_get n den num old s j : (s < n)%nat -> (j < n)%nat ->
  mget (new_matrix n den num old) s j = est (vget den s) (mget num s) (mget old s) j.
Proof. intros Hs Hj. unfold mget at 1, new_matrix. rewrite vbuild_nth by exact Hs. apply new_row_get; exact Hj. Qed.
Lemma new_row_length n (den : R) num old : length (new_row n den num old) = n.
Proof. unfold new_row. destruct (_ =? _)%num; apply vbuild_length. Qed.
Lemma new_matrix_square n (den : list R) num old : square n (new_matrix n den num old).
Proof.
  split; [apply vbuild_length|]. intros r I. unfold new_matrix, vbuild in I. apply in_map_iff in I.
  destruct I as [s [<- _]]. apply new_row_length.
Qed.

Lemma est_sum m D N p : D = Sum m N -> Sum m (est D N p) = if Req_EM_T D 0 then Sum m p else 1.
Proof.
  intros E. unfold est. destruct (Req_EM_T D 0); [reflexivity|]. rewrite Sum_div_r, <- E. field. assumption.
Qed.
Lemma est_nonneg m D N p : D = Sum m N -> (forall j, (j < m)%nat -> 0 <= N j) -> (forall j, (j < m)%nat -> 0 <= p j) ->
  forall j, (j < m)%nat -> 0 <= est D N p j.
Proof.
  intros E HN Hp j Hj. unfold est. destruct (Req_EM_T D 0); [auto|].
  assert (0 <= D) by (rewrite E; apply Sum_nonneg; exact HN). apply Rmult_le_pos; [auto|].
  apply Rlt_le, Rinv_0_lt_compat. lra.
Qed.
Definition sqdist (m : nat) (p q : nat -> R) : R := Sum m (fun j => (sqrt (q j) - sqrt (p j)) ^ 2).
Lemma sqdist_nonneg m p q : 0 <= sqdist m p q.
Proof. apply Sum_nonneg. intros. apply pow2_ge_0. Qed.
Lemma est_gain m D N p : D = Sum m N -> (forall j, (j < m)%nat -> 0 <= N j) -> (forall j, (j < m)%nat -> 0 <= p j) ->
  (forall j, (j < m)%nat -> 0 < N j -> 0 < p j) -> Sum m p <= 1 ->
  D * sqdist m p (est D N p) <= Sum m (fun j => N j * ln (est D N p j / p j)).
Proof.
  intros E HN Hp Hs H1. unfold est, sqdist. destruct (Req_EM_T D 0) as [Z|Z].
  - rewrite Z, Rmult_0_l. apply Req_le. symmetry. apply Sum_zero_ext. intros j Hj. rewrite (Sum_eq0 m N HN) by (auto; lra). ring.
  - rewrite E in *. apply hellinger_gain; auto. assert (0 <= Sum m N) by (apply Sum_nonneg; exact HN). lra.
Qed.
Lemma est_improve m D N p : D = Sum m N -> (forall j, (j < m)%nat -> 0 <= N j) -> (forall j, (j < m)%nat -> 0 <= p j) ->
  (forall j, (j < m)%nat -> 0 < N j -> 0 < p j) -> Sum m p <= 1 ->
  0 <= Sum m (fun j => N j * ln (est D N p j / p j)).
Proof.
  intros E HN Hp Hs H1. unfold est. destruct (Req_EM_T D 0) as [Z|Z].
  - apply Req_le. symmetry. apply Sum_zero_ext. intros j Hj. rewrite (Sum_eq0 m N HN) by (auto; lra). ring.
  - rewrite E in *. apply gibbs; auto. assert (0 <= Sum m N) by (apply Sum_nonneg; exact HN). lra.
Qed.

(** ** Extensionality in the final factor *)
Lemma xi_ext_f n a W f g s s' : (forall i, (i < n)%nat -> f i = g i) -> (s' < n)%nat -> xi n a W f s s' = xi n a W g s s'.
Proof.
  intros E Hs. revert a. induction W as [|w W IH]; intros a; [reflexivity|]. cbn [xi]. rewrite (Bk_ext n W f g) by auto. f_equal. apply IH.
Qed.
Lemma gam_ext_f n a W f g s : (forall i, (i < n)%nat -> f i = g i) -> (s < n)%nat -> gam n a W f s = gam n a W g s.
Proof.
  intros E Hs. revert a. induction W as [|w W IH]; intros a; [reflexivity|]. cbn [gam]. rewrite (Bk_ext n (w :: W) f g) by auto. f_equal. apply IH.
Qed.
Lemma tot_ext_f n a W f g : (forall i, (i < n)%nat -> f i = g i) -> tot n a W f = tot n a W g.
Proof. intros E. apply Sum_ext. intros i Hi. rewrite (Bk_ext n W f g) by auto. reflexivity. Qed.

Notation one := (fun _ : nat => 1).

Lemma stat_den_spec n (a f : list R) ws c s : length a = n -> length f = n -> (s < n)%nat ->
  stat_den (bw_alphas n a ws) (bw_betas n f ws) c s = rsum (gam n (vget a) ws (vget f) s) * c.
Proof.
  intros La Lf Hs. unfold stat_den. rewrite gam_model by assumption. toR. rewrite !rsum_sumL, sumL_map, sumL_scal_r. reflexivity.
Qed.
Lemma stat_num_spec n (a f : list R) ws p c s s' : length a = n -> length f = n -> (s < n)%nat -> (s' < n)%nat ->
  p = map (fun w => w s s') ws ->
  stat_num (bw_alphas n a ws) (bw_betas n f ws) p c s s' = rsum (xi n (vget a) ws (vget f) s s') * c.
Proof.
  intros La Lf Hs Hs' ->. unfold stat_num. rewrite xi_model by assumption. toR. rewrite !rsum_sumL, sumL_map, sumL_scal_r. reflexivity.
Qed.
Lemma gam_xi_sum n a W f s : (s < n)%nat -> rsum (gam n a W f s) = Sum n (fun s' => rsum (xi n a W f s s')).
Proof.
  intros Hs. rewrite <- (wsum_ones (gam n a W f s) (length W)) by (rewrite gam_length; lia).
  rewrite gam_xi by exact Hs. apply Sum_ext. intros s' Hs'. rewrite wsum_ones by (rewrite xi_length; lia). reflexivity.
Qed.
Lemma rsum_nonneg l : (forall x, In x l -> 0 <= x) -> 0 <= rsum l.
Proof. intros. rewrite rsum_sumL. apply sumL_nonneg. assumption. Qed.

(** log-likelihood of the results *)
Lemma log_lik_spec pt : log_lik pt = sumL pt (fun x => ln (fst x) * IZR (snd x)).
Proof. reflexivity. Qed.
