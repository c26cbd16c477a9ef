(** Expected counts summed over all the traces of a length. *)
From Coq Require Import String ZArith Bool Reals Lra Lia List.
From Verif Require Import Num Py SNum LSum SPath LPath MSet MModels SBW SLik LFB LLik LLik2 LGibbs LPLearn3 PRace SExact.
Import ListNotations.
Local Open Scope R_scope.

Section Exact.
  Context {W : Type} (dec : forall a b : W, {a = b} + {a <> b}).
  Variables (n : nat) (A : nat -> nat -> R) (B : W -> nat -> R) (alph : list W).
  Hypothesis ND : NoDup alph.
  Hypothesis HA : forall s, (s < n)%nat -> Sum n (A s) = 1.
  Hypothesis HB : forall s, (s < n)%nat -> sumL alph (fun o => B o s) = 1.
  Hypothesis NA : forall s s', (s < n)%nat -> (s' < n)%nat -> 0 <= A s s'.
  Hypothesis NB : forall o s, (s < n)%nat -> 0 <= B o s.
  Hypothesis UB : forall o s, (s < n)%nat -> ~ In o alph -> B o s = 0.

  Definition pw (tr : list W) (x : list nat) : R := path_weight (repeat A (length tr)) (map B tr ++ [fun _ => 1]) x.
  Definition ex (a : nat -> R) (g : W -> nat -> nat -> R) (tr : list W) : R := expected n a (repeat A (length tr)) (map B tr ++ [fun _ => 1]) (map g tr).
  Definition tp (a : nat -> R) (tr : list W) : R := trace_prob n a (repeat A (length tr)) (map B tr ++ [fun _ => 1]).
  Definition hs (tr : list W) (j : nat) : R := sumL (paths n (length tr)) (fun y => pw tr (j :: y)).
  Definition adv (a : nat -> R) (j : nat) : R := Sum n (fun i => a i * A i j).
  Fixpoint visits (T : nat) (a : nat -> R) (i : nat) : R := match T with O => 0 | Datatypes.S T' => a i + visits T' (adv a) i end.

  Lemma pw_cons o tr i j y : pw (o :: tr) (i :: j :: y) = B o i * (A i j * pw tr (j :: y)).
  Proof. unfold pw. cbn [length repeat map app path_weight]. destruct (map B tr ++ [fun _ => 1]) eqn:E; [destruct tr; discriminate|]. reflexivity. Qed.
  Lemma hs_cons o tr i : hs (o :: tr) i = B o i * Sum n (fun j => A i j * hs tr j).
  Proof.
    unfold hs. cbn [length]. rewrite sumL_paths_S, <- Sum_scal_l. apply Sum_ext. intros j _. rewrite <- !sumL_scal_l. apply sumL_ext. intros y _. rewrite pw_cons. reflexivity.
  Qed.
  Lemma hs_nil i : hs [] i = 1.
  Proof. unfold hs, pw. cbn. unfold sumL. cbn. ring. Qed.
  Lemma hs_words T : forall j, (j < n)%nat -> sumL (words alph T) (fun tr => hs tr j) = 1.
  Proof.
    induction T as [|T IH]; intros j L; cbn [words].
    - rewrite sumL_cons, sumL_nil, hs_nil. ring.
    - rewrite sumL_flat_map. rewrite (sumL_ext alph _ (fun o => B o j * 1)).
      + rewrite sumL_scal_r, HB by exact L. ring.
      + intros o _. rewrite sumL_map. rewrite (sumL_ext _ _ (fun tr => B o j * Sum n (fun k => A j k * hs tr k))) by (intros; apply hs_cons). rewrite sumL_scal_l. f_equal.
        unfold Sum. rewrite sumL_swap. rewrite <- (HA j L). apply sumL_ext. intros k I. apply in_seq in I. rewrite sumL_scal_l, IH by lia. ring.
  Qed.
  Lemma tp_hs a tr : tp a tr = Sum n (fun i => a i * hs tr i).
  Proof.
    unfold tp, trace_prob. rewrite app_length, map_length. cbn [length]. rewrite Nat.add_1_r, sumL_paths_S. apply Sum_ext. intros i _. cbn [hd]. rewrite sumL_scal_l. reflexivity.
  Qed.
  Lemma tp_words T a : sumL (words alph T) (tp a) = Sum n a.
  Proof.
    rewrite (sumL_ext _ _ (fun tr => Sum n (fun i => a i * hs tr i))) by (intros; apply tp_hs). unfold Sum. rewrite sumL_swap. apply sumL_ext. intros i I. apply in_seq in I.
    rewrite sumL_scal_l, hs_words by lia. ring.
  Qed.
  Lemma ex_cons a g o tr : ex a g (o :: tr) = Sum n (fun i => Sum n (fun j => a i * B o i * A i j * g o i j * hs tr j)) + ex (fun j => Sum n (fun i => a i * B o i * A i j)) g tr.
  Proof.
    unfold ex, expected. rewrite !app_length, !map_length. cbn [length]. rewrite Nat.add_1_r. rewrite sumL_paths_S.
    rewrite (Sum_ext n (fun s => sumL (paths n (Datatypes.S (length tr))) _) (fun i => Sum n (fun j => a i * B o i * A i j * g o i j * hs tr j + sumL (paths n (length tr)) (fun y => a i * B o i * A i j * pw tr (j :: y) * path_reward (map g tr) (j :: y))))).
    - rewrite (Sum_ext n _ (fun i => Sum n (fun j => a i * B o i * A i j * g o i j * hs tr j) + Sum n (fun j => sumL (paths n (length tr)) (fun y => a i * B o i * A i j * pw tr (j :: y) * path_reward (map g tr) (j :: y))))) by (intros; apply Sum_plus).
      rewrite Sum_plus. f_equal. rewrite Nat.add_1_r, sumL_paths_S. rewrite Sum_swap. apply Sum_ext. intros j _. unfold Sum at 1. rewrite sumL_swap. apply sumL_ext. intros y _. cbn [hd].
      fold (pw tr (j :: y)). unfold Sum. rewrite <- !sumL_scal_r. apply sumL_ext. intros i _. ring.
    - intros i _. rewrite sumL_paths_S. apply Sum_ext. intros j _. cbn [hd map]. unfold hs. rewrite <- sumL_scal_l, <- sumL_plus. apply sumL_ext. intros y _.
      pose proof (pw_cons o tr i j y) as Q. unfold pw in Q at 1. cbn [length repeat map app] in Q |- *. rewrite Q. cbn [path_reward]. ring.
  Qed.
  Lemma ex_lin {Y} (l : list Y) (a : Y -> nat -> R) g tr : sumL l (fun o => ex (a o) g tr) = ex (fun j => sumL l (fun o => a o j)) g tr.
  Proof. unfold ex, expected. rewrite sumL_swap. apply sumL_ext. intros x _. rewrite <- !sumL_scal_r. reflexivity. Qed.
  Lemma ex_ext a a' g tr : (forall i, (i < n)%nat -> a i = a' i) -> ex a g tr = ex a' g tr.
  Proof. intros H. unfold ex, expected. apply sumL_ext. intros x I. apply paths_range in I as [Lx Rx]. destruct x as [|i x]; [rewrite app_length in Lx; cbn in Lx; lia|]. cbn [hd]. rewrite H by (apply Rx; left; reflexivity). reflexivity. Qed.
  Lemma ex_words T g : forall a, sumL (words alph T) (ex a g) = Sum n (fun i => visits T a i * Sum n (fun j => A i j * sumL alph (fun o => B o i * g o i j))).
  Proof.
    induction T as [|T IH]; intros a; cbn [words visits].
    - rewrite sumL_cons, sumL_nil. unfold ex, expected. rewrite sumL_zero_ext by (intros x _; cbn [map path_reward]; destruct x as [|? [|? ?]]; cbn; ring). rewrite (Sum_zero_ext n); [ring|intros; ring].
    - rewrite sumL_flat_map. rewrite (sumL_ext alph _ (fun o => Sum n (fun i => Sum n (fun j => a i * B o i * A i j * g o i j)) + sumL (words alph T) (ex (fun j => Sum n (fun i => a i * B o i * A i j)) g))).
      + rewrite sumL_plus. rewrite (sumL_swap alph (words alph T)). rewrite (sumL_ext (words alph T) _ (ex (adv a) g)).
        * rewrite IH. rewrite (Sum_ext n (fun i => (a i + _) * _) (fun i => a i * Sum n (fun j => A i j * sumL alph (fun o => B o i * g o i j)) + visits T (adv a) i * Sum n (fun j => A i j * sumL alph (fun o => B o i * g o i j)))) by (intros; ring).
          rewrite Sum_plus. f_equal. unfold Sum at 1. rewrite sumL_swap. apply sumL_ext. intros i _. unfold Sum at 1. rewrite sumL_swap. rewrite <- Sum_scal_l. apply sumL_ext. intros j _.
          rewrite <- !sumL_scal_l. apply sumL_ext. intros o _. ring.
        * intros tr _. rewrite ex_lin. apply ex_ext. intros j Lj. unfold adv. unfold Sum. rewrite sumL_swap. apply sumL_ext. intros i I. apply in_seq in I.
          rewrite (sumL_ext alph _ (fun o => (a i * A i j) * B o i)) by (intros; ring). rewrite sumL_scal_l, HB by lia. ring.
      + intros o _. rewrite sumL_map. rewrite (sumL_ext _ _ (fun tr => Sum n (fun i => Sum n (fun j => a i * B o i * A i j * g o i j * hs tr j)) + ex (fun j => Sum n (fun i => a i * B o i * A i j)) g tr)) by (intros; apply ex_cons).
        rewrite sumL_plus. f_equal. unfold Sum. rewrite sumL_swap. apply sumL_ext. intros i _. rewrite sumL_swap. apply sumL_ext. intros j I. apply in_seq in I. rewrite sumL_scal_l, hs_words by lia. ring.
  Qed.
  Lemma pw_nonneg tr : forall x, (forall j, In j x -> (j < n)%nat) -> 0 <= pw tr x.
  Proof.
    induction tr as [|o tr IH]; intros x Rx.
    - unfold pw. destruct x as [|i [|j x]]; cbn; lra.
    - destruct x as [|i [|j x]]; [unfold pw; cbn; lra| |].
      + unfold pw. cbn. destruct (map B tr ++ [fun _ => 1]); lra.
      + rewrite pw_cons. apply Rmult_le_pos; [apply NB, Rx; left; reflexivity|]. apply Rmult_le_pos; [apply NA; apply Rx; cbn; auto|]. apply IH. intros k K. apply Rx. right. exact K.
  Qed.
  Variable a : nat -> R.
  Hypothesis Na : forall i, (i < n)%nat -> 0 <= a i.
  (** Impossible traces have no expected counts. *)
  Lemma tp_zero_ex g tr : tp a tr = 0 -> ex a g tr = 0.
  Proof.
    intros Z. unfold tp, trace_prob in Z. unfold ex, expected. apply sumL_zero_ext. intros x I.
    assert (WW : a (hd 0%nat x) * pw tr x = 0).
    { refine (sumL_eq0 _ (fun x => a (hd 0%nat x) * pw tr x) _ Z x I). clear x I. intros x I. apply paths_range in I as [L R]. destruct x as [|i x]; [rewrite app_length in L; cbn in L; lia|]. apply Rmult_le_pos; [apply Na, R; left; reflexivity|apply pw_nonneg, R]. }
    unfold pw in WW. rewrite WW. ring.
  Qed.
  Lemma tp_unknown o tr : In o tr -> ~ In o alph -> tp a tr = 0.
  Proof.
    intros I N. rewrite tp_hs. apply Sum_zero_ext. intros i Li. replace (hs tr i) with 0; [ring|]. symmetry. revert i Li. induction tr as [|o' tr IH]; intros i Li; [destruct I|].
    rewrite hs_cons. destruct I as [->|I]; [rewrite UB by assumption; ring|]. rewrite (Sum_zero_ext n); [ring|]. intros j Lj. rewrite IH by assumption. ring.
  Qed.
  Lemma tp_nonneg tr : 0 <= tp a tr.
  Proof. unfold tp, trace_prob. apply sumL_nonneg. intros x I. apply paths_range in I as [L R]. destruct x as [|i x]; [rewrite app_length in L; cbn in L; lia|]. apply Rmult_le_pos; [apply Na, R; left; reflexivity|apply pw_nonneg, R]. Qed.

  (** Sums over an exact set. *)
  Lemma sumL_by_key {Y} (key : Y -> nat) (l : list Y) (F : Y -> R) Ts : NoDup Ts -> (forall y, In y l -> In (key y) Ts) ->
    sumL l F = sumL Ts (fun T => sumL (filter (fun y => (key y =? T)%nat) l) F).
  Proof.
    intros N H. rewrite (sumL_ext Ts _ (fun T => sumL l (fun y => if (key y =? T)%nat then F y else 0))) by (intros; apply sumL_filter). rewrite sumL_swap. apply sumL_ext. intros y I.
    specialize (H y I). clear I. induction Ts as [|T Ts IH]; [destruct H|]. inversion N as [|? ? N1 N2]; subst. rewrite sumL_cons. destruct (Nat.eqb_spec (key y) T) as [->|E].
    - rewrite sumL_zero_ext; [ring|]. intros T' I'. destruct (Nat.eqb_spec T T') as [->|]; [contradiction|reflexivity].
    - destruct H as [H|H]; [congruence|]. rewrite <- (IH N2 H). ring.
  Qed.
  Theorem exact_sums (P : list W -> R) set : (forall tr, tr <> [] -> P tr = tp a tr) -> exact_set P set ->
    exists (Ts : list nat) (c : nat -> R), (forall T, In T Ts -> 0 < c T) /\ (set <> [] -> Ts <> []) /\
      forall F : list W -> R, (forall tr, tp a tr = 0 -> F tr = 0) -> set_expected (tp a) F set = sumL Ts (fun T => c T * sumL (words alph T) F).
  Proof.
    intros HP (Nd & Pos & Cl & Pr). set (Ts := nodup Nat.eq_dec (map (fun st => length (fst st)) set)).
    pose (c := fun T => match find (fun st => (length (fst st) =? T)%nat) set with Some (tr, t) => IZR t / tp a tr | None => 1 end).
    assert (PT : forall tr t, In (tr, t) set -> 0 < tp a tr) by (intros tr t I; destruct (Pos tr t I) as (E & _ & Q); rewrite <- HP by exact E; exact Q).
    assert (C : forall tr t, In (tr, t) set -> IZR t = c (length tr) * tp a tr /\ 0 < c (length tr)).
    { intros tr t I. unfold c. destruct (find (fun st => (length (fst st) =? length tr)%nat) set) as [[tr0 t0]|] eqn:E.
      - apply find_some in E as [I0 E]. cbn [fst] in E. apply Nat.eqb_eq in E. specialize (Pr tr0 t0 tr t I0 I (eq_sym E)). destruct (Pos tr t I) as (E1 & Q1 & R1), (Pos tr0 t0 I0) as (E2 & Q2 & R2).
        rewrite HP in Pr, R1 by exact E1. rewrite HP in Pr, R2 by exact E2. split; [|apply Rdiv_lt_0_compat; [apply IZR_lt; exact Q2|exact R2]].
        apply (Rmult_eq_reg_r (tp a tr0)); [|lra]. rewrite <- Pr. field. lra.
      - exfalso. pose proof (find_none _ _ E (tr, t) I) as E'. cbn in E'. rewrite Nat.eqb_refl in E'. discriminate. }
    exists Ts, c. split; [|split].
    - intros T I. apply nodup_In, in_map_iff in I as ([tr t] & <- & I). apply (C tr t I).
    - intros NE. destruct set as [|[tr t] set]; [congruence|]. intros E. assert (J : In (length tr) Ts) by (apply nodup_In; left; reflexivity). rewrite E in J. destruct J.
    - intros F HF. unfold set_expected. rewrite (sumL_by_key (fun st => length (fst st)) set _ Ts); [|apply NoDup_nodup|intros st I; apply nodup_In; apply (in_map (fun st => length (fst st))), I].
      apply sumL_ext. intros T IT. rewrite (sumL_ext _ _ (fun st => c T * F (fst st))).
      + rewrite sumL_scal_l. f_equal. rewrite <- sumL_map with (h := fst) (f := F).
        apply (sumL_sub (list_eq_dec dec)).
        * clear - Nd. induction set as [|[tr t] set IH]; [constructor|]. inversion Nd as [|? ? N1 N2]; subst. cbn [filter]. destruct (length (fst (tr, t)) =? T)%nat; [|apply IH, N2]. cbn [map]. constructor; [|apply IH, N2].
          intros J. apply N1. apply in_map_iff in J as (st & Est & J). apply filter_In in J as [J _]. cbn [fst] in *. rewrite <- Est. apply in_map, J.
        * apply words_NoDup, ND.
        * intros tr I. apply in_map_iff in I as ([tr' t] & <- & I). apply filter_In in I as [I E]. cbn [fst] in *. apply Nat.eqb_eq in E. rewrite <- E. apply words_In. intros o Io.
          destruct (in_dec dec o alph) as [|N]; [assumption|]. exfalso. specialize (PT tr' t I). rewrite (tp_unknown o tr' Io N) in PT. lra.
        * intros tr I N. apply HF. destruct (Req_dec (tp a tr) 0) as [E|E]; [exact E|]. exfalso. apply N. clear N. pose proof (words_length _ _ _ I) as L.
          apply nodup_In, in_map_iff in IT as ([tr0 t0] & E0 & I0). cbn [fst] in E0. pose proof (tp_nonneg tr). destruct (Pos tr0 t0 I0) as (NE & _).
          assert (NEt : tr <> []) by (intros ->; apply NE; destruct tr0; [reflexivity|cbn in *; lia]).
          destruct (Cl tr0 t0 tr I0 ltac:(lia) ltac:(rewrite HP by exact NEt; lra)) as (t' & I'). apply in_map_iff. exists (tr, t'). split; [reflexivity|]. apply filter_In. split; [exact I'|]. cbn. apply Nat.eqb_eq, L.
      + intros [tr t] I. apply filter_In in I as [I E]. cbn [fst snd] in *. apply Nat.eqb_eq in E. destruct (C tr t I) as [E1 _]. specialize (PT tr t I). destruct (Rlt_dec 0 (tp a tr)); [|contradiction]. rewrite E1, E. field. lra.
  Qed.
End Exact.
