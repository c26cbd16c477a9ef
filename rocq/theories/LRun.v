(** Lemmas on simulation. *)
From Coq Require Import String ZArith Bool Reals List Lra Lia.
From Verif Require Import Num Py SNum LSum MTools LTools SPath LPath MSet SSet LSet MModels MCtor SBW SLik MRun SRun LCtor.
Import ListNotations.
Local Open Scope R_scope.

Lemma firstn_S_sum (p : list R) k : (k < length p)%nat -> rsum (firstn (S k) p) = rsum (firstn k p) + vecR p k.
Proof.
  revert k; induction p as [|x p IH]; intros [|k] L; cbn [length] in L; try lia.
  - cbn. unfold vecR. cbn. lra.
  - change (firstn (S (S k)) (x :: p)) with (x :: firstn (S k) p). change (firstn (S k) (x :: p)) with (x :: firstn k p).
    rewrite !rsum_cons, IH by lia. unfold vecR. cbn [nth]. lra.
Qed.
Lemma selected_iff p r k : nonneg p -> 0 <= r -> (resolveRandom p r = Ok k <-> selected p r k).
Proof.
  intros N Hr. rewrite (resolveRandom_iff p r k N Hr). unfold selected, vecR. split; intros (A & B & C); (split; [exact A|]; split; [exact B|]).
  - rewrite firstn_S_sum in C by exact A. exact C.
  - rewrite firstn_S_sum by exact A. exact C.
Qed.
Lemma dist_selects p r : is_dist p -> unit_draw r -> exists k, resolveRandom p r = Ok k /\ selected p r k.
Proof.
  intros [N S] [H0 H1]. destruct (resolveRandom p r) as [k|e] eqn:E.
  - exists k. split; [reflexivity|]. apply selected_iff; assumption.
  - pose proof (resolveRandom_only_index _ _ _ E) as ->. apply resolveRandom_err in E; [lra|assumption|assumption].
Qed.
Lemma selected_unique p r k k' : nonneg p -> 0 <= r -> selected p r k -> selected p r k' -> k = k'.
Proof. intros N H A B. apply selected_iff in A, B; auto. congruence. Qed.

Lemma pyget_nth {A} (l : list A) i d : (i < length l)%nat -> pyget l (Z.of_nat i) = Ok (nth i l d).
Proof. intros L. rewrite pyget_nat, (nth_error_nth' l d) by exact L. reflexivity. Qed.
Lemma at_list_nth {A} (l : list A) i d : (i < length l)%nat -> at_list l i = Ok (nth i l d).
Proof. intros L. unfold at_list. rewrite (nth_error_nth' l d) by exact L. reflexivity. Qed.

(** ** Positive paths have positive probability *)
Lemma paths_In n x : (forall i, In i x -> (i < n)%nat) -> In x (paths n (length x)).
Proof.
  induction x as [|s x IH]; intros H; cbn [paths length]; [left; reflexivity|].
  apply in_flat_map. exists s. split; [apply in_seq; specialize (H s (or_introl eq_refl)); lia|].
  apply in_map, IH. intros i I. apply H. right; exact I.
Qed.
Lemma path_weight_nonneg n As Bs x : (forall i, In i x -> (i < n)%nat) ->
  (forall A i j, In A As -> (i < n)%nat -> (j < n)%nat -> 0 <= A i j) -> (forall B i, In B Bs -> (i < n)%nat -> 0 <= B i) ->
  0 <= path_weight As Bs x.
Proof.
  revert As x; induction Bs as [|b Bs IH]; intros As [|s x] R HA HB; destruct As as [|A As]; cbn [path_weight]; try lra;
  (apply Rmult_le_pos; [apply HB; [left; reflexivity|apply R; left; reflexivity]|]).
  { destruct Bs; [|lra]. destruct x; lra. }
  destruct Bs as [|b' Bs]; destruct x as [|s' x]; try lra.
  apply Rmult_le_pos.
  - apply HA; [left; reflexivity|apply R; left; reflexivity|apply R; right; left; reflexivity].
  - apply IH; [intros i I; apply R; right; exact I|intros; apply HA; [right|..]; assumption|intros; apply HB; [right|]; assumption].
Qed.
Lemma trace_prob_pos n pi As Bs x : length x = length Bs -> (forall i, In i x -> (i < n)%nat) ->
  (forall i, (i < n)%nat -> 0 <= pi i) ->
  (forall A i j, In A As -> (i < n)%nat -> (j < n)%nat -> 0 <= A i j) -> (forall B i, In B Bs -> (i < n)%nat -> 0 <= B i) ->
  Bs <> [] -> 0 < pi (hd O x) -> 0 < path_weight As Bs x -> 0 < trace_prob n pi As Bs.
Proof.
  intros L R HP HA HB NE H1 H2. unfold trace_prob. apply (sumL_pos _ _ x).
  - intros y I. pose proof (paths_range _ _ _ I) as Ry. apply Rmult_le_pos.
    + apply HP. destruct y as [|s y]; [|apply Ry; left; reflexivity]. apply paths_length in I. destruct Bs; [congruence|discriminate].
    + apply (path_weight_nonneg n); assumption.
  - rewrite <- L. apply paths_In, R.
  - apply Rmult_lt_0_compat; assumption.
Qed.

(** ** Generated sets *)
Section Gen.
  Context {A : Type} (eqb : A -> A -> bool) (D : decides_eq eqb).
  Lemma gen_add_step acc tr : length (fst acc) = length (snd acc) -> gen_add eqb acc tr = setFromList_step eqb acc tr.
  Proof.
    destruct acc as [ss vs]. cbn [fst snd]. intros L. unfold gen_add, setFromList_step. destruct (memb eqb tr ss) eqn:M; cbn [negb]; [reflexivity|].
    assert (N : ~ In tr ss). { intros I. apply (LCtor.memb_In eqb D) in I. congruence. }
    assert (E : index_of eqb tr (ss ++ [tr]) = Some (length ss)).
    { clear L M. induction ss as [|y ss IH]; cbn.
      - rewrite (proj2 (D tr tr) eq_refl). reflexivity.
      - destruct (eqb tr y) eqn:Ey; [apply D in Ey; exfalso; apply N; left; auto|].
        rewrite IH; [reflexivity|]. intros I; apply N; right; exact I. }
    rewrite E, L. f_equal.
    assert (U : forall (l : list Z) x, upd (l ++ [x]) (length l) (nth (length l) (l ++ [x]) 0 + 1)%Z = l ++ [(x + 1)%Z]).
    { intros l x. rewrite app_nth2, Nat.sub_diag by lia. cbn [nth]. generalize (x + 1)%Z. intros y. induction l as [|z l IH]; cbn; [reflexivity|]. rewrite IH. reflexivity. }
    rewrite U. reflexivity.
  Qed.
  Lemma step_lengths acc tr : length (fst acc) = length (snd acc) ->
    length (fst (setFromList_step eqb acc tr)) = length (snd (setFromList_step eqb acc tr)).
  Proof.
    destruct acc as [ss vs]. cbn [fst snd]. intros L. unfold setFromList_step. destruct (memb eqb tr ss).
    - destruct (index_of eqb tr ss); cbn; [rewrite LCtor.upd_length|]; exact L.
    - destruct (index_of eqb tr (ss ++ [tr])); cbn; [rewrite LCtor.upd_length|]; rewrite !app_length, L; reflexivity.
  Qed.
  Context (run : nat -> Z -> res A) (tr : nat -> A) (size : nat -> Z).
  Lemma gen_loop_ok param geo ms k i prev acc : length (fst acc) = length (snd acc) ->
    (forall j prev, (i <= j < i + k)%nat -> gen_size param geo ms j prev = Ok (size j)) ->
    (forall j, (i <= j < i + k)%nat -> run j (size j) = Ok (tr j)) ->
    gen_loop eqb run k i param geo ms prev acc = Ok (fold_left (setFromList_step eqb) (map tr (seq i k)) acc).
  Proof.
    revert i prev acc; induction k as [|k IH]; intros i prev acc L H1 H2; cbn [gen_loop seq map fold_left]; [reflexivity|].
    rewrite H1 by lia. cbn [bind]. rewrite H2 by lia. cbn [bind]. rewrite gen_add_step by exact L.
    apply IH; [apply step_lengths, L|intros; apply H1; lia|intros; apply H2; lia].
  Qed.
End Gen.
Lemma gen_size_ok param geo ms k size : requested param geo ms k size ->
  forall j prev, (j < k)%nat -> gen_size param geo ms j prev = Ok (size j).
Proof.
  unfold requested, gen_size. intros R j prev L. destruct geo as [g|].
  - destruct R as (z & -> & E). rewrite E by exact L. reflexivity.
  - destruct param as [l|z|].
    + destruct R as [Lk E]. rewrite (pyget_nth l j 0%Z) by lia. rewrite E by exact L. reflexivity.
    + rewrite R by exact L. reflexivity.
    + lia.
Qed.

(** ** Minimum of a list *)
Lemma min_list_spec x l : (min_list (K:=R) x l = x \/ In (min_list x l) l) /\ min_list x l <= x /\ forall y, In y l -> min_list x l <= y.
Proof.
  revert x; induction l as [|z l IH]; intros x; cbn [min_list].
  - split; [left; reflexivity|]. split; [lra|intros y []].
  - destruct (nltb z x) eqn:H; [apply Rltb_true in H|apply Rltb_false in H].
    + destruct (IH z) as (A & B & C). split; [destruct A as [->|A]; right; [left; reflexivity|right; exact A]|].
      split; [lra|]. intros y [<-|I]; [exact B|apply C, I].
    + destruct (IH x) as (A & B & C). split; [destruct A as [->|A]; [left; reflexivity|right; right; exact A]|].
      split; [exact B|]. intros y [<-|I]; [lra|apply C, I].
Qed.
