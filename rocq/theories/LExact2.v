(** Expected counts summed over all the traces with given actions. *)
From Coq Require Import String ZArith Bool Reals Lra Lia List.
From Verif Require Import Num Py SNum LSum SPath LPath MSet MModels SBW SLik LFB LLik LLik2 LGibbs LPLearn3 PRace SExact LExact.
Import ListNotations.
Local Open Scope R_scope.

Lemma sumL_by {Y K} (dec : forall a b : K, {a = b} + {a <> b}) (key : Y -> K) (l : list Y) (F : Y -> R) Ts : NoDup Ts -> (forall y, In y l -> In (key y) Ts) ->
  sumL l F = sumL Ts (fun T => sumL (filter (fun y => if dec (key y) T then true else false) l) F).
Proof.
  intros N H. rewrite (sumL_ext Ts _ (fun T => sumL l (fun y => if dec (key y) T then F y else 0))).
  2:{ intros T _. rewrite sumL_filter. apply sumL_ext. intros y _. destruct (dec (key y) T); reflexivity. }
  rewrite sumL_swap. apply sumL_ext. intros y I.
  specialize (H y I). clear I. induction Ts as [|T Ts IH]; [destruct H|]. inversion N as [|? ? N1 N2]; subst. rewrite sumL_cons. destruct (dec (key y) T) as [<-|E].
  - rewrite sumL_zero_ext; [ring|]. intros T' I'. destruct (dec (key y) T') as [<-|]; [contradiction|reflexivity].
  - destruct H as [H|H]; [congruence|]. rewrite <- (IH N2 H). ring.
Qed.
Theorem exact_sums_by {W K} (decW : forall a b : W, {a = b} + {a <> b}) (dec : forall a b : K, {a = b} + {a <> b}) (key : list W -> K) (enum : K -> list (list W)) (P : list W -> R) set :
  exact_set_by key P set -> (forall k, NoDup (enum k)) -> (forall tr t, In (tr, t) set -> In tr (enum (key tr))) ->
  (forall tr t tr', In (tr, t) set -> In tr' (enum (key tr)) -> key tr' = key tr /\ 0 <= P tr') ->
  exists (Ts : list K) (c : K -> R), (forall T, In T Ts -> exists tr t, In (tr, t) set /\ key tr = T) /\
    forall F : list W -> R, (forall tr, P tr = 0 -> F tr = 0) -> set_expected P F set = sumL Ts (fun T => c T * sumL (enum T) F).
Proof.
  intros (Nd & Pos & Cl & Pr) NE In1 In2. set (Ts := nodup dec (map (fun st => key (fst st)) set)).
  pose (c := fun T => match find (fun st => if dec (key (fst st)) T then true else false) set with Some (tr, t) => IZR t / P tr | None => 1 end).
  assert (C : forall tr t, In (tr, t) set -> IZR t = c (key tr) * P tr).
  { intros tr t I. unfold c. destruct (find (fun st => if dec (key (fst st)) (key tr) then true else false) set) as [[tr0 t0]|] eqn:E.
    - apply find_some in E as [I0 E]. cbn [fst] in E. destruct (dec (key tr0) (key tr)) as [E'|]; [|discriminate]. specialize (Pr tr0 t0 tr t I0 I (eq_sym E')). destruct (Pos tr t I) as (E1 & Q1 & R1), (Pos tr0 t0 I0) as (E2 & Q2 & R2).
      apply (Rmult_eq_reg_r (P tr0)); [|lra]. rewrite <- Pr. field. lra.
    - exfalso. pose proof (find_none _ _ E (tr, t) I) as E'. cbn in E'. destruct (dec (key tr) (key tr)); congruence. }
  exists Ts, c. split; [intros T I; apply nodup_In, in_map_iff in I as ([tr t] & E & I); exists tr, t; split; assumption|]. intros F HF. unfold set_expected. rewrite (sumL_by dec (fun st => key (fst st)) set _ Ts); [|apply NoDup_nodup|intros st I; apply nodup_In; apply (in_map (fun st => key (fst st))), I].
  apply sumL_ext. intros T IT. rewrite (sumL_ext _ _ (fun st => c T * F (fst st))).
  - rewrite sumL_scal_l. f_equal. rewrite <- sumL_map with (h := fst) (f := F). apply (sumL_sub (list_eq_dec decW)).
    + clear - Nd. induction set as [|[tr t] set IH]; [constructor|]. inversion Nd as [|? ? N1 N2]; subst. cbn [filter]. destruct (dec (key (fst (tr, t))) T); [|apply IH, N2]. cbn [map]. constructor; [|apply IH, N2].
      intros J. apply N1. apply in_map_iff in J as (st & Est & J). apply filter_In in J as [J _]. cbn [fst] in *. rewrite <- Est. apply in_map, J.
    + apply NE.
    + intros tr I. apply in_map_iff in I as ([tr' t] & <- & I). apply filter_In in I as [I E]. cbn [fst] in *. destruct (dec (key tr') T) as [<-|]; [|discriminate]. apply (In1 tr' t I).
    + intros tr I N. apply HF. destruct (Req_dec (P tr) 0) as [E|E]; [exact E|]. exfalso. apply N. clear N.
      apply nodup_In, in_map_iff in IT as ([tr0 t0] & E0 & I0). cbn [fst] in E0. subst T. destruct (In2 tr0 t0 tr I0 I) as [Ek Pn].
      destruct (Cl tr0 t0 tr I0 Ek ltac:(lra)) as (t' & I'). apply in_map_iff. exists (tr, t'). split; [reflexivity|]. apply filter_In. split; [exact I'|]. cbn. destruct (dec (key tr) (key tr0)); [reflexivity|contradiction].
  - intros [tr t] I. apply filter_In in I as [I E]. cbn [fst snd] in *. destruct (dec (key tr) T) as [<-|]; [|discriminate]. destruct (Pos tr t I) as (_ & _ & Q). destruct (Rlt_dec 0 (P tr)); [|contradiction]. rewrite (C tr t I). field. lra.
Qed.

(** Labels and actions in turn. *)
Fixpoint weave {E} (w acts : list E) : list E :=
  match w with [] => [] | l :: w' => l :: match acts with [] => [] | a :: acts' => a :: weave w' acts' end end.
Lemma weave_evens {E} (acts : list E) : forall w, length w = S (length acts) -> evens (weave w acts) = w /\ odds (weave w acts) = acts.
Proof.
  induction acts as [|a acts IH]; intros [|l w] L; try discriminate; cbn in *.
  - destruct w; [split; reflexivity|discriminate].
  - destruct (IH w ltac:(lia)) as [E1 E2]. rewrite E1, E2. split; reflexivity.
Qed.
Lemma weave_odd {E} (acts : list E) : forall w, length w = S (length acts) -> Nat.odd (length (weave w acts)) = true.
Proof.
  induction acts as [|a acts IH]; intros [|l w] L; try discriminate; cbn in *; [reflexivity|]. exact (IH w ltac:(lia)).
Qed.
Lemma weave_back {E} : forall (tr : list E) N, (length tr <= N)%nat -> Nat.odd (length tr) = true -> tr = weave (evens tr) (odds tr) /\ length (evens tr) = S (length (odds tr)).
Proof.
  intros tr N. revert tr. induction N as [|N IH]; intros tr L Od; [destruct tr; [discriminate|cbn in L; lia]|].
  destruct tr as [|l [|a tr]]; [discriminate|split; reflexivity|]. cbn in L. destruct (IH tr ltac:(lia) Od) as [E1 E2]. cbn. rewrite <- E1. split; [reflexivity|lia].
Qed.

Section Acts.
  Context {W : Type} (n : nat) (B : W -> nat -> R) (alph : list W).
  Hypothesis HB : forall s, (s < n)%nat -> sumL alph (fun o => B o s) = 1.
  Definition rows1 (A : nat -> nat -> R) := forall s, (s < n)%nat -> Sum n (A s) = 1.

  Fixpoint total (a : nat -> R) (As : list (nat -> nat -> R)) (gs : list (nat -> nat -> R)) : R :=
    match As, gs with
    | A :: As', g :: gs' => Sum n (fun i => a i * Sum n (fun j => A i j * g i j)) + total (fun j => Sum n (fun i => a i * A i j)) As' gs'
    | _, _ => 0
    end.
  Definition h2 As (w : list W) (j : nat) : R := sumL (paths n (length As)) (fun y => path_weight As (map B w) (j :: y)).
  Lemma pw2 A As o o' w i j y : path_weight (A :: As) (map B (o :: o' :: w)) (i :: j :: y) = B o i * (A i j * path_weight As (map B (o' :: w)) (j :: y)).
  Proof. reflexivity. Qed.
  Lemma h2_words As : Forall rows1 As -> forall j, (j < n)%nat -> sumL (words alph (S (length As))) (fun w => h2 As w j) = 1.
  Proof.
    induction As as [|A As IH]; intros F j Lj.
    - cbn [length]. change (words alph 1) with (flat_map (fun o => map (cons o) [[]]) alph). rewrite sumL_flat_map. rewrite <- (HB j Lj). apply sumL_ext. intros o _. unfold h2, sumL. cbn. ring.
    - inversion F as [|? ? F1 F2]; subst. cbn [length]. change (words alph (S (S (length As)))) with (flat_map (fun o => map (cons o) (words alph (S (length As)))) alph). rewrite sumL_flat_map.
      rewrite <- (HB j Lj). apply sumL_ext. intros o _. rewrite sumL_map. rewrite (sumL_ext _ _ (fun w => B o j * Sum n (fun k => A j k * h2 As w k))).
      + rewrite sumL_scal_l. replace (sumL _ _) with 1; [ring|]. symmetry. unfold Sum. rewrite sumL_swap. rewrite <- (F1 j Lj). apply sumL_ext. intros k I. apply in_seq in I. rewrite sumL_scal_l, IH by (assumption || lia). ring.
      + intros w Iw. apply words_length in Iw. destruct w as [|o' w]; [discriminate|]. unfold h2. cbn [length]. rewrite sumL_paths_S, <- Sum_scal_l. apply Sum_ext. intros k _. rewrite <- !sumL_scal_l. apply sumL_ext. intros y _. apply pw2.
  Qed.
  Definition ex2 a As gs (w : list W) := expected n a As (map B w) gs.
  Lemma ex2_cons a A As g gs o w : length w = S (length As) ->
    ex2 a (A :: As) (g :: gs) (o :: w) = Sum n (fun i => Sum n (fun j => a i * B o i * A i j * g i j * h2 As w j)) + ex2 (fun j => Sum n (fun i => a i * B o i * A i j)) As gs w.
  Proof.
    intros L. destruct w as [|o' w]; [discriminate|]. injection L as L. unfold ex2, expected. rewrite !map_length. cbn [length]. rewrite L. rewrite sumL_paths_S.
    rewrite (Sum_ext n (fun s => sumL (paths n (S (length As))) _) (fun i => Sum n (fun j => a i * B o i * A i j * g i j * h2 As (o' :: w) j + sumL (paths n (length As)) (fun y => a i * B o i * A i j * path_weight As (map B (o' :: w)) (j :: y) * path_reward gs (j :: y))))).
    - rewrite (Sum_ext n _ (fun i => Sum n (fun j => a i * B o i * A i j * g i j * h2 As (o' :: w) j) + Sum n (fun j => sumL (paths n (length As)) (fun y => a i * B o i * A i j * path_weight As (map B (o' :: w)) (j :: y) * path_reward gs (j :: y))))) by (intros; apply Sum_plus).
      rewrite Sum_plus. f_equal. rewrite sumL_paths_S. rewrite Sum_swap. apply Sum_ext. intros j _. unfold Sum at 1. rewrite sumL_swap. apply sumL_ext. intros y _. cbn [hd].
      unfold Sum. rewrite <- !sumL_scal_r. apply sumL_ext. intros i _. ring.
    - intros i _. rewrite sumL_paths_S. apply Sum_ext. intros j _. cbn [hd]. unfold h2. rewrite <- sumL_scal_l, <- sumL_plus. apply sumL_ext. intros y _. rewrite pw2. cbn [path_reward]. ring.
  Qed.
  Lemma ex2_lin {Y} (l : list Y) (a : Y -> nat -> R) As gs w : sumL l (fun o => ex2 (a o) As gs w) = ex2 (fun j => sumL l (fun o => a o j)) As gs w.
  Proof. unfold ex2, expected. rewrite sumL_swap. apply sumL_ext. intros x _. rewrite <- !sumL_scal_r. reflexivity. Qed.
  Lemma ex2_ext a a' As gs w : w <> [] -> (forall i, (i < n)%nat -> a i = a' i) -> ex2 a As gs w = ex2 a' As gs w.
  Proof. intros NE H. unfold ex2, expected. apply sumL_ext. intros x I. apply paths_range in I as [Lx Rx]. rewrite map_length in Lx. destruct x as [|i x]; [destruct w; [congruence|discriminate]|]. cbn [hd]. rewrite H by (apply Rx; left; reflexivity). reflexivity. Qed.
  Lemma ex2_words As : Forall rows1 As -> forall gs a, length gs = length As -> sumL (words alph (S (length As))) (ex2 a As gs) = total a As gs.
  Proof.
    induction As as [|A As IH]; intros F gs a L.
    - destruct gs; [|discriminate]. cbn [total]. apply sumL_zero_ext. intros w _. unfold ex2, expected. apply sumL_zero_ext. intros x _. cbn [path_reward]. ring.
    - destruct gs as [|g gs]; [discriminate|]. injection L as L. inversion F as [|? ? F1 F2]; subst. cbn [length total].
      change (words alph (S (S (length As)))) with (flat_map (fun o => map (cons o) (words alph (S (length As)))) alph). rewrite sumL_flat_map.
      rewrite (sumL_ext alph _ (fun o => Sum n (fun i => Sum n (fun j => a i * B o i * A i j * g i j)) + sumL (words alph (S (length As))) (ex2 (fun j => Sum n (fun i => a i * B o i * A i j)) As gs))).
      + rewrite sumL_plus. f_equal.
        * unfold Sum at 1. rewrite sumL_swap. apply sumL_ext. intros i Ii. apply in_seq in Ii. unfold Sum at 1. rewrite sumL_swap. rewrite <- Sum_scal_l. apply sumL_ext. intros j _.
          rewrite (sumL_ext alph _ (fun o => (a i * A i j * g i j) * B o i)) by (intros; ring). rewrite sumL_scal_l, HB by lia. ring.
        * rewrite sumL_swap. rewrite (sumL_ext _ _ (ex2 (fun j => Sum n (fun i => a i * A i j)) As gs)); [apply IH; assumption|]. intros w Iw. apply words_length in Iw. rewrite ex2_lin. apply ex2_ext; [intros ->; discriminate|].
          intros j Lj. unfold Sum. rewrite sumL_swap. apply sumL_ext. intros i I. apply in_seq in I. rewrite (sumL_ext alph _ (fun o => (a i * A i j) * B o i)) by (intros; ring). rewrite sumL_scal_l, HB by lia. ring.
      + intros o _. rewrite sumL_map. rewrite (sumL_ext _ _ (fun w => Sum n (fun i => Sum n (fun j => a i * B o i * A i j * g i j * h2 As w j)) + ex2 (fun j => Sum n (fun i => a i * B o i * A i j)) As gs w)).
        * rewrite sumL_plus. f_equal. unfold Sum. rewrite sumL_swap. apply sumL_ext. intros i _. rewrite sumL_swap. apply sumL_ext. intros j I. apply in_seq in I. rewrite sumL_scal_l, h2_words by (assumption || lia). ring.
        * intros w Iw. apply words_length in Iw. apply ex2_cons, Iw.
  Qed.
End Acts.
